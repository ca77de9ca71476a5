(** * EmbC1: positions around a component of a partial embedding that force a K5 or K3,3 minor. *)
From Coq Require Import ZifyBool Permutation Sorted.
From Verif Require Import Base BaseP GraphRec GraphM GraphSpec GSimp LinkP GraphP2 ListM ListSpec ListP DFSM DFSSpec DFSP TestP EmbM EmbSpec EmbP FaceP GeoP GeoP2 EmbInv EmbStep EmbTree PlanSpec.
From Verif Require Export FanP.

Section Paths.
Variable E : Z -> Z -> Prop.
Hypothesis Esym : forall x y, E x y -> E y x.
(** ** Consecutive vertices of a list are adjacent *)
Fixpoint lnk (L : list Z) : Prop := match L with x :: (y :: _) as l => E x y /\ lnk l | _ => True end.
Lemma lnk_cons x L : lnk (x :: L) <-> (L <> [] -> E x (hd NIL L)) /\ lnk L.
Proof. destruct L as [|y L]; cbn [lnk hd]; [tauto|]. split; [intros [H1 H2]; auto|]. intros [H1 H2]. split; [apply H1; discriminate|auto]. Qed.
Lemma lnk_app A B : A <> [] -> B <> [] -> lnk (A ++ B) <-> lnk A /\ E (last A NIL) (hd NIL B) /\ lnk B.
Proof.
  intros HA HB. induction A as [|x A IH]; [congruence|]. destruct A as [|y A].
  - cbn [app last]. rewrite lnk_cons. cbn [lnk]. tauto.
  - cbn [app]. rewrite lnk_cons. rewrite (lnk_cons x (y :: A)). cbn [app] in IH. rewrite IH by discriminate. cbn [hd last]. split; intros H; [|split; [|tauto]]; [|intros _; apply H; discriminate].
    destruct H as [H1 H2]. split; [split; [intros _; apply H1; discriminate|tauto]|tauto].
Qed.
Lemma lnk_l A B : lnk (A ++ B) -> lnk A.
Proof. induction A as [|x A IH]; [cbn; auto|]. cbn [app]. rewrite !lnk_cons. intros [H1 H2]. split; [|auto]. destruct A; [congruence|]. intros _. apply H1. discriminate. Qed.
Lemma lnk_r A B : lnk (A ++ B) -> lnk B.
Proof. induction A as [|x A IH]; [auto|]. cbn [app]. rewrite lnk_cons. tauto. Qed.
Lemma lnk_mid A x y B : lnk (A ++ x :: y :: B) -> E x y.
Proof. intros H. apply lnk_r in H. apply H. Qed.
Lemma lnk_rev L : lnk L -> lnk (rev L).
Proof.
  induction L as [|x L IH]; [auto|]. rewrite lnk_cons. intros [H1 H2]. cbn [rev]. destruct L as [|y L]; [exact Logic.I|].
  apply lnk_app; [|discriminate|].
  - cbn [rev]. destruct (rev L); discriminate.
  - split; [auto|]. split; [|exact Logic.I]. cbn [rev hd]. rewrite last_snoc. apply Esym. apply H1. discriminate.
Qed.

(** ** Connected sets *)
Inductive pw (P : Z -> Prop) : Z -> Z -> Prop :=
| pw_here x : P x -> pw P x x
| pw_step x y z : P x -> E x y -> pw P y z -> pw P x z.
Definition conp (P : Z -> Prop) : Prop := exists r, P r /\ forall x, P x -> pw P x r.
Definition tch (P Q : Z -> Prop) : Prop := exists x y, P x /\ Q y /\ E x y.
Definition dis (P Q : Z -> Prop) : Prop := forall z, P z -> Q z -> False.
Lemma tch_sym P Q : tch P Q -> tch Q P.
Proof. intros (x & y & H1 & H2 & H3). exists y, x. auto. Qed.
Lemma dis_sym P Q : dis P Q -> dis Q P.
Proof. intros H z H1 H2. exact (H z H2 H1). Qed.
Lemma pw_trans P x y z : pw P x y -> pw P y z -> pw P x z.
Proof. induction 1; auto. intros K. eapply pw_step; eauto. Qed.
Lemma pw_sub (P Q : Z -> Prop) x y : (forall z, P z -> Q z) -> pw P x y -> pw Q x y.
Proof. intros H. induction 1; [constructor; auto|eapply pw_step; eauto]. Qed.
Lemma pw_end P x y : pw P x y -> P y.
Proof. induction 1; auto. Qed.
Lemma pw_snoc P x y z : pw P x y -> E y z -> P z -> pw P x z.
Proof. intros H K L. eapply pw_trans; [exact H|]. eapply pw_step; [eapply pw_end; eauto|exact K|now constructor]. Qed.
Lemma pw_sym P x y : pw P x y -> pw P y x.
Proof. induction 1; [now constructor|]. eapply pw_snoc; eauto. Qed.
Lemma pw_path (P : Z -> Prop) L x y : (forall z, P z <-> In z L) -> pw P x y -> path_in E L x y.
Proof.
  intros HL H. apply pw_sym in H. induction H as [x H|x y z H1 H2 H3 IH]; [constructor; now apply HL|]. eapply path_step; [exact IH|now apply Esym|now apply HL].
Qed.
Lemma conp_one x : conp (fun z => z = x).
Proof. exists x. split; [auto|]. intros y ->. now constructor. Qed.
Lemma conp_set (P : Z -> Prop) L : (forall z, P z <-> In z L) -> conp P -> conn_set E L.
Proof.
  intros HL (r & Hr & H). split.
  - intros ->. apply HL in Hr. destruct Hr.
  - intros x y Hx Hy. apply (pw_path P L x y HL). apply HL in Hx, Hy. eapply pw_trans; [apply H, Hx|]. apply pw_sym. auto.
Qed.
(** A connected set with touching connected sets added. *)
Lemma conp_union P Q : conp P -> conp Q -> tch P Q -> conp (fun z => P z \/ Q z).
Proof.
  intros (r & Hr & H) (q & Hq & K) (x & y & Hx & Hy & Exy). exists r. split; [auto|]. intros z [Hz|Hz].
  - eapply pw_sub; [|apply H, Hz]. auto.
  - apply pw_trans with y.
    + apply (pw_sub Q); [auto|]. eapply pw_trans; [apply K, Hz|]. apply pw_sym. auto.
    + apply pw_step with x; [auto|auto|]. apply (pw_sub P); [auto|]. apply H, Hx.
Qed.

Variable V : Z -> Prop.
Variable zr : list Z.
Hypothesis Hzr : forall z, V z <-> In z zr.
Definition decp (P : Z -> Prop) := forall z, {P z} + {~ P z}.
Definition lst (P : Z -> Prop) (D : decp P) : list Z := filter (fun z => if D z then true else false) zr.
Lemma lst_in (P : Z -> Prop) (D : decp P) : (forall z, P z -> V z) -> forall z, P z <-> In z (lst P D).
Proof.
  intros HV z. unfold lst. rewrite filter_In, <- Hzr. destruct (D z); split; intros H; [split; auto|auto|contradiction|]. destruct H as [_ H]. discriminate.
Qed.
Lemma K33_of A1 A2 A3 B1 B2 B3 : decp A1 -> decp A2 -> decp A3 -> decp B1 -> decp B2 -> decp B3 ->
  Forall (fun P => conp P /\ forall z, P z -> V z) [A1; A2; A3; B1; B2; B3] -> ForallOrdPairs dis [A1; A2; A3; B1; B2; B3] ->
  Forall (fun P => tch P B1 /\ tch P B2 /\ tch P B3) [A1; A2; A3] -> kuratowski V E.
Proof.
  intros D1 D2 D3 D4 D5 D6 C Dj T. right.
  pose (L1 := lst A1 D1). pose (L2 := lst A2 D2). pose (L3 := lst A3 D3). pose (L4 := lst B1 D4). pose (L5 := lst B2 D5). pose (L6 := lst B3 D6).
  repeat match goal with H : Forall _ (_ :: _) |- _ => apply Forall_cons_iff in H; destruct H | H : _ /\ _ |- _ => destruct H end.
  assert (I1 := lst_in A1 D1 ltac:(assumption)). assert (I2 := lst_in A2 D2 ltac:(assumption)). assert (I3 := lst_in A3 D3 ltac:(assumption)).
  assert (I4 := lst_in B1 D4 ltac:(assumption)). assert (I5 := lst_in B2 D5 ltac:(assumption)). assert (I6 := lst_in B3 D6 ltac:(assumption)).
  fold L1 in I1. fold L2 in I2. fold L3 in I3. fold L4 in I4. fold L5 in I5. fold L6 in I6.
  exists (fun i => if i =? 1 then L1 else if i =? 2 then L2 else if i =? 3 then L3 else if i =? 4 then L4 else if i =? 5 then L5 else L6).
  repeat match goal with H : ForallOrdPairs _ (_ :: _) |- _ => inversion H; subst; clear H | H : Forall _ (_ :: _) |- _ => apply Forall_cons_iff in H; destruct H end.
  assert (Cs : forall P L, (forall z, P z <-> In z L) -> conp P -> (forall z, P z -> V z) -> conn_set E L /\ forall x, In x L -> V x).
  { intros P L HL HC HV. split; [now apply (conp_set P)|]. intros x Hx. apply HV. now apply HL. }
  assert (Ds : forall P Q L M, (forall z, P z <-> In z L) -> (forall z, Q z <-> In z M) -> dis P Q -> forall x, In x L -> ~ In x M).
  { intros P Q L M HL HM HD x Hx Hy. apply HL in Hx. apply HM in Hy. exact (HD x Hx Hy). }
  assert (Ts : forall P Q L M, (forall z, P z <-> In z L) -> (forall z, Q z <-> In z M) -> tch P Q -> touching E L M).
  { intros P Q L M HL HM (x & y & Hx & Hy & Hxy). exists x, y. split; [now apply HL|]. split; [now apply HM|auto]. }
  split; [|split].
  - intros i Hi. assert (i = 1 \/ i = 2 \/ i = 3 \/ i = 4 \/ i = 5 \/ i = 6) as Q by lia.
    destruct Q as [-> |[-> |[-> |[-> |[-> | ->]]]]]; cbn [Z.eqb Pos.eqb]; eapply Cs; eauto.
  - intros i j x Hi Hj. assert (i = 1 \/ i = 2 \/ i = 3 \/ i = 4 \/ i = 5) as Q by lia. assert (j = 2 \/ j = 3 \/ j = 4 \/ j = 5 \/ j = 6) as Q' by lia.
    destruct Q as [-> |[-> |[-> |[-> | ->]]]], Q' as [-> |[-> |[-> |[-> | ->]]]]; try lia; cbn [Z.eqb Pos.eqb]; eapply Ds; eauto.
  - intros i j Hi Hj. assert (i = 1 \/ i = 2 \/ i = 3) as Q by lia. assert (j = 4 \/ j = 5 \/ j = 6) as Q' by lia.
    destruct Q as [-> |[-> | ->]], Q' as [-> |[-> | ->]]; cbn [Z.eqb Pos.eqb]; eapply Ts; eauto.
Qed.
Lemma K5_of A1 A2 A3 A4 A5 : decp A1 -> decp A2 -> decp A3 -> decp A4 -> decp A5 ->
  Forall (fun P => conp P /\ forall z, P z -> V z) [A1; A2; A3; A4; A5] -> ForallOrdPairs dis [A1; A2; A3; A4; A5] ->
  ForallOrdPairs tch [A1; A2; A3; A4; A5] -> kuratowski V E.
Proof.
  intros D1 D2 D3 D4 D5 C Dj T. left.
  pose (L1 := lst A1 D1). pose (L2 := lst A2 D2). pose (L3 := lst A3 D3). pose (L4 := lst A4 D4). pose (L5 := lst A5 D5).
  repeat match goal with H : Forall _ (_ :: _) |- _ => apply Forall_cons_iff in H; destruct H | H : _ /\ _ |- _ => destruct H end.
  assert (I1 := lst_in A1 D1 ltac:(assumption)). assert (I2 := lst_in A2 D2 ltac:(assumption)). assert (I3 := lst_in A3 D3 ltac:(assumption)).
  assert (I4 := lst_in A4 D4 ltac:(assumption)). assert (I5 := lst_in A5 D5 ltac:(assumption)).
  fold L1 in I1. fold L2 in I2. fold L3 in I3. fold L4 in I4. fold L5 in I5.
  exists (fun i => if i =? 1 then L1 else if i =? 2 then L2 else if i =? 3 then L3 else if i =? 4 then L4 else L5).
  repeat match goal with H : ForallOrdPairs _ (_ :: _) |- _ => inversion H; subst; clear H | H : Forall _ (_ :: _) |- _ => apply Forall_cons_iff in H; destruct H end.
  assert (Cs : forall P L, (forall z, P z <-> In z L) -> conp P -> (forall z, P z -> V z) -> conn_set E L /\ forall x, In x L -> V x).
  { intros P L HL HC HV. split; [now apply (conp_set P)|]. intros x Hx. apply HV. now apply HL. }
  assert (Ds : forall P Q L M, (forall z, P z <-> In z L) -> (forall z, Q z <-> In z M) -> dis P Q -> forall x, In x L -> ~ In x M).
  { intros P Q L M HL HM HD x Hx Hy. apply HL in Hx. apply HM in Hy. exact (HD x Hx Hy). }
  assert (Ts : forall P Q L M, (forall z, P z <-> In z L) -> (forall z, Q z <-> In z M) -> tch P Q -> touching E L M).
  { intros P Q L M HL HM (x & y & Hx & Hy & Hxy). exists x, y. split; [now apply HL|]. split; [now apply HM|auto]. }
  split; [|split].
  - intros i Hi. assert (i = 1 \/ i = 2 \/ i = 3 \/ i = 4 \/ i = 5) as Q by lia.
    destruct Q as [-> |[-> |[-> |[-> | ->]]]]; cbn [Z.eqb Pos.eqb]; eapply Cs; eauto.
  - intros i j x Hi Hj. assert (i = 1 \/ i = 2 \/ i = 3 \/ i = 4) as Q by lia. assert (j = 2 \/ j = 3 \/ j = 4 \/ j = 5) as Q' by lia.
    destruct Q as [-> |[-> |[-> | ->]]], Q' as [-> |[-> |[-> | ->]]]; try lia; cbn [Z.eqb Pos.eqb]; eapply Ds; eauto.
  - intros i j Hi Hj. assert (i = 1 \/ i = 2 \/ i = 3 \/ i = 4) as Q by lia. assert (j = 2 \/ j = 3 \/ j = 4 \/ j = 5) as Q' by lia.
    destruct Q as [-> |[-> |[-> | ->]]], Q' as [-> |[-> |[-> | ->]]]; try lia; cbn [Z.eqb Pos.eqb]; eapply Ts; eauto.
Qed.
End Paths.
