(** * EmbC2: the parts of the DFS tree that hang from a component, and the obstructions they give. *)
From Coq Require Import ZifyBool Permutation Sorted.
From Verif Require Import Base BaseP GraphRec GraphM GraphSpec GSimp LinkP GraphP2 ListM ListSpec ListP DFSM DFSSpec DFSP TestP EmbM EmbSpec EmbP FaceP GeoP GeoP2 EmbInv EmbStep EmbTree EmbJoin EmbDown PlanSpec EmbC1.

Ltac fall := repeat (apply Forall_cons || apply Forall_nil || apply FOP_cons || apply FOP_nil || apply conj).
Definition apexed (g0 : graph) (E : Z -> Z -> Prop) : Prop := opl g0 = true -> forall x, prim (gN g0) x -> E x NIL.
Section Hang.
Variables (g0 : graph) (kids : Z -> list Z).
Hypothesis St : static g0 kids.
Local Notation N := (gN g0).
Local Notation p := (viParent (gVI g0)).
Local Notation prim := (prim (gN g0)).
Local Notation isroot := (isroot (gN g0)).
Local Notation geo := (geo (gN g0) (viParent (gVI g0))).
Local Notation anc := (ancestor (viParent (gVI g0))).
Local Notation via := (via g0).
Local Notation act := (act g0).
Variable E : Z -> Z -> Prop.
Hypothesis Esym : forall x y, E x y -> E y x.
Hypothesis Etree : forall c, prim c -> p c <> NIL -> E c (p c).
Local Notation lnk := (lnk E).
Local Notation conp := (conp E).
Local Notation tch := (tch E).
Local Notation pw := (pw E).
(** Asked for an outerplanar embedding, the graph is taken together with a further vertex, NIL, that is adjacent to all. *)
Hypothesis Eap : apexed g0 E.
Definition vok (z : Z) : Prop := primary g0 z \/ opl g0 = true /\ z = NIL.
Definition vlist : list Z := if opl g0 then NIL :: zr g0 else zr g0.
Local Notation K := (kuratowski vok E).

Lemma prim_dec z : {prim z} + {~ prim z}.
Proof. unfold GeoP.prim. destruct (Z_le_dec 1 z), (Z_le_dec z N); [left; lia|right; lia|right; lia|right; lia]. Qed.
Lemma anc_dec a z : prim z -> {anc a z} + {~ anc a z}.
Proof.
  assert (Q : forall n z, z < Z.of_nat n -> prim z -> {anc a z} + {~ anc a z}).
  { induction n as [|n IH]; intros w Hw Pw; [exfalso; unfold GeoP.prim in Pw; lia|]. destruct (Z.eq_dec a w) as [->|Ne]; [left; constructor|].
    destruct (Z.eq_dec (p w) NIL) as [E0|E0]; [right; intros A; apply (anc_root _ _ _ E0) in A; congruence|].
    destruct (Hp g0 kids St w Pw E0) as [Pp Lp]. destruct (IH (p w) ltac:(lia) Pp) as [A|A]; [left; now apply anc_step|right].
    intros A'. apply A. apply (anc_up g0 _ _ A' Ne). }
  intros Pz. apply (Q (Z.to_nat (z + 1)) z); [unfold GeoP.prim in Pz; lia|auto].
Qed.

(** z is x or lies below a child of x whose component is separate. *)
Definition hs (s : gv) (Rs : list Z) (x z : Z) : Prop := z = x \/ exists d, act s d /\ ~ In (N + d) Rs /\ p d = x /\ anc d z /\ prim z.
Definition hang (s : gv) (L : list Z) (z : Z) : Prop := exists x, In x L /\ hs s [] x z.
Definition below (d z : Z) : Prop := prim z /\ anc d z.
Definition rest (c d z : Z) : Prop := prim z /\ anc c z /\ ~ anc d z.
(** The vertices above v. *)
Definition tset (v z : Z) : Prop := if opl g0 then z = NIL else prim z /\ p v <> NIL /\ anc z (p v).
Definition hast (v : Z) : Prop := opl g0 = true \/ p v <> NIL.
Lemma hs_mono s Rs x z : hs s Rs x z -> hs s [] x z.
Proof. intros [->|(d & H1 & H2 & H3)]; [now left|]. right. exists d. split; [auto|]. split; [intros []|auto]. Qed.
Lemma hs_prim s Rs x z : prim x -> hs s Rs x z -> prim z.
Proof. intros Px [->|(d & _ & _ & _ & _ & H)]; auto. Qed.
Lemma hs_anc s Rs x z : hs s Rs x z -> anc x z.
Proof.
  intros [->|(d & (A1 & A2 & A3) & _ & H2 & H3 & _)]; [constructor|]. apply anc_trans with d; [|auto]. apply anc_step; [auto|]. rewrite H2. constructor.
Qed.
Lemma hs_dec s Rs x z : prim x -> {hs s Rs x z} + {~ hs s Rs x z}.
Proof.
  intros Px. unfold hs. destruct (Z.eq_dec z x) as [->|Ne]; [left; now left|]. destruct (prim_dec z) as [Pz|Pz]; [|right; intros [|(d & _ & _ & _ & _ & Q)]; contradiction].
  destruct (Exists_dec (fun d => act s d /\ ~ In (N + d) Rs /\ anc d z) (kids x)) as [H|H].
  - intros d. destruct (act_dec g0 s d) as [|Na]; [|right; tauto]. destruct (in_dec Z.eq_dec (N + d) Rs); [right; tauto|]. destruct (anc_dec d z Pz); [left; tauto|right; tauto].
  - left. right. apply Exists_exists in H. destruct H as (d & H1 & H2 & H3 & H4). exists d. apply (st_kid _ _ St) in H1. tauto.
  - right. intros [|(d & H1 & H2 & H3 & H4 & H5)]; [contradiction|]. apply H. apply Exists_exists. exists d. split; [|auto]. apply (st_kid _ _ St). split; [apply H1|]. split; auto.
Qed.
Lemma hang_dec s L : (forall x, In x L -> prim x) -> decp (hang s L).
Proof.
  intros HL z. unfold hang. induction L as [|x L IH]; [right; intros (x & [] & _)|].
  destruct (hs_dec s [] x z (HL x (or_introl eq_refl))) as [H|H]; [left; exists x; split; [now left|auto]|].
  destruct IH as [K|K]; [intros; apply HL; now right|left; destruct K as (y & K1 & K2); exists y; split; [now right|auto]|].
  right. intros (y & [<-|Hy] & Q); [auto|]. apply K. eauto.
Qed.
Lemma below_dec d : decp (below d).
Proof. intros z. unfold below. destruct (prim_dec z) as [Pz|]; [|right; tauto]. destruct (anc_dec d z Pz); [left; tauto|right; tauto]. Qed.
Lemma rest_dec c d : decp (rest c d).
Proof.
  intros z. unfold rest. destruct (prim_dec z) as [Pz|]; [|right; tauto]. destruct (anc_dec c z Pz); [|right; tauto]. destruct (anc_dec d z Pz); [right; tauto|left; tauto].
Qed.
Lemma tset_dec v : prim v -> decp (tset v).
Proof.
  intros Pv z. unfold tset. destruct (opl g0); [apply Z.eq_dec|]. destruct (prim_dec z) as [Pz|]; [|right; tauto]. destruct (Z.eq_dec (p v) NIL) as [|Nv]; [right; tauto|].
  destruct (anc_dec z (p v) (proj1 (Hp g0 kids St v Pv Nv))); [left; tauto|right; tauto].
Qed.

(** ** Connected *)
Lemma up_pw (P : Z -> Prop) a z : prim z -> anc a z -> (forall y, prim y -> anc a y -> anc y z -> P y) -> pw P z a.
Proof.
  intros Pz A. revert Pz. induction A as [|z Hn A IH]; intros Pz HP; [constructor; apply HP; auto; constructor|].
  apply pw_step with (p z); [apply HP; auto; [now apply anc_step|constructor]|now apply Etree|]. apply IH; [now apply (Hp g0 kids St)|]. intros y Py A1 A2. apply HP; auto. now apply anc_step.
Qed.
Lemma below_conp d : prim d -> conp (below d).
Proof. intros Pd. exists d. split; [split; [auto|constructor]|]. intros z [Pz A]. apply up_pw; auto. intros y Py A1 _. split; auto. Qed.
Lemma rest_conp c d : prim c -> ~ anc d c -> conp (rest c d).
Proof.
  intros Pc Hd. exists c. split; [split; [auto|]; split; [constructor|auto]|]. intros z (Pz & A & Nd). apply up_pw; auto. intros y Py A1 A2. split; [auto|]. split; [auto|].
  intros Q. apply Nd. exact (anc_trans _ _ _ _ Q A2).
Qed.
Lemma tset_conp v : prim v -> hast v -> conp (tset v).
Proof.
  unfold tset, hast. intros Pv Nv. destruct (opl g0); [exists NIL; split; [auto|]; intros z ->; now constructor|]. destruct Nv as [Nv|Nv]; [discriminate|]. destruct (Hp g0 kids St v Pv Nv) as [Pp _]. exists (p v). split; [split; [auto|]; split; [auto|constructor]|]. intros z (Pz & _ & A). apply pw_sym; [exact Esym|].
  apply up_pw; auto.
Qed.
Lemma hs_pw s L x z : prim x -> In x L -> hs s [] x z -> pw (hang s L) z x.
Proof.
  intros Px Hx H. assert (Pz := hs_prim _ _ _ _ Px H). destruct H as [->|(d & Ad & H1 & H2 & H3 & _)].
  { constructor. exists x. split; [auto|now left]. }
  destruct Ad as (A1 & A2 & A3). apply (pw_snoc E _ _ d).
  - apply up_pw; auto. intros y Py B1 B2. exists x. split; [auto|]. right. exists d. split; [split; auto|]. auto.
  - rewrite <- H2. auto.
  - exists x. split; [auto|now left].
Qed.
Lemma hang_conp s L : L <> [] -> lnk L -> (forall x, In x L -> prim x) -> conp (hang s L).
Proof.
  intros Ne HL HP. destruct L as [|r L]; [congruence|]. clear Ne. exists r. split; [exists r; split; [now left|now left]|].
  intros z (x & Hx & Hz). apply (pw_trans E _ z x); [apply hs_pw; auto|]. clear z Hz. apply in_split in Hx. destruct Hx as (A & B0 & EL).
  assert (Hs : forall y, In y (r :: L) -> hang s (r :: L) y) by (intros y Hy; exists y; split; [auto|now left]).
  revert x B0 EL. assert (Q : forall A x B0, r :: L = A ++ x :: B0 -> pw (hang s (r :: L)) x r); [|intros x B0 EL; eapply Q; eauto].
  clear A. intros A. induction A as [|y A IH] using rev_ind; intros x B0 EL.
  - injection EL as <- <-. constructor. apply Hs. now left.
  - rewrite <- app_assoc in EL. cbn [app] in EL. apply pw_step with y; [apply Hs; rewrite EL; apply in_app_iff; right; right; now left| |apply (IH y (x :: B0) EL)].
    apply Esym. apply (lnk_mid E A y x B0). rewrite <- EL. exact HL.
Qed.

Variable s : gv.
Hypothesis G : geo NIL [] s.

(** ** Disjoint *)
Lemma hs_disj x y z : prim x -> prim y -> p x <> NIL -> p y <> NIL -> B s x = B s y -> x <> y -> hs s [] x z -> hs s [] y z -> False.
Proof.
  intros Px Py Nx Ny EB Ne Hx Hy.
  assert (One : forall x y, prim x -> prim y -> p x <> NIL -> B s x = B s y -> x <> y -> forall d, act s d -> p d = x -> anc d y -> False).
  { clear x y Px Py Nx Ny EB Ne Hx Hy. intros x y Px Py Nx EB Ne d Ad Ed A. pose proof (B_near g0 kids St _ _ _ _ _ G Ad Py A) as L. rewrite <- EB in L.
    destruct (B_act g0 kids St _ _ _ _ G Px Nx) as (b & Eb & Ab & Anb). pose proof (anc_le g0 kids St _ _ Px Anb). destruct Ad as (A1 & A2 & _). pose proof (proj2 (Hp g0 kids St d A1 A2)). lia. }
  destruct Hx as [->|(d & Ad & _ & E1 & A1 & Pz)], Hy as [E2|(d' & Ad' & _ & E2 & A2 & Pz')].
  - congruence.
  - apply (One y x Py Px Ny (eq_sym EB) ltac:(congruence) d' Ad' E2 A2).
  - subst z. apply (One x y Px Py Nx EB Ne d Ad E1 A1).
  - destruct (Z_le_dec d d') as [Le|Le].
    + assert (A : anc d d') by (apply (anc_total g0 kids St) with z; auto). destruct (Z.eq_dec d d') as [->|Nd]; [congruence|]. destruct (anc_up g0 _ _ A Nd) as [_ A3]. rewrite E2 in A3.
      apply (One x y Px Py Nx EB Ne d Ad E1 A3).
    + assert (A : anc d' d) by (apply (anc_total g0 kids St) with z; auto; lia). destruct (anc_up g0 _ _ A ltac:(lia)) as [_ A3]. rewrite E1 in A3.
      apply (One y x Py Px Ny (eq_sym EB) ltac:(congruence) d' Ad' E2 A3).
Qed.

(** ** Every vertex below an active child hangs from its component *)
Lemma lift d z : act s d -> prim z -> anc d z -> exists e, prim e /\ B s e = N + d /\ hs s [] e z.
Proof.
  intros Ad. assert (Q : forall n z, z < Z.of_nat n -> prim z -> anc d z -> exists e, prim e /\ B s e = N + d /\ hs s [] e z).
  { induction n as [|n IH]; intros w Hw Pw A; [unfold GeoP.prim in Pw; lia|].
    assert (Nw : p w <> NIL). { destruct Ad as (A1 & A2 & _). intros E0. apply (anc_root _ _ _ E0) in A. congruence. }
    destruct (B_act g0 kids St _ _ _ _ G Pw Nw) as (b & Eb & Ab & Anb). pose proof (B_near g0 kids St _ _ _ _ _ G Ad Pw A) as L.
    destruct (Z.eq_dec b d) as [->|Ne]; [exists w; split; [auto|]; split; [auto|now left]|].
    assert (A' : anc d b) by (apply (anc_total g0 kids St) with w; auto; lia). destruct (anc_up g0 _ _ A' ltac:(congruence)) as [N1 A2].
    destruct (Hp g0 kids St b (proj1 Ab) N1) as [Pp Lp]. pose proof (anc_le g0 kids St _ _ Pw Anb).
    destruct (IH (p b) ltac:(lia) Pp A2) as (e & Pe & Be & He). exists e. split; [auto|]. split; [auto|]. right. destruct He as [Eb'|(d' & D1 & D2 & D3 & D4 & _)].
    - exists b. split; [auto|]. split; [intros []|]. auto.
    - exists d'. split; [auto|]. split; [auto|]. split; [auto|]. split; [|auto]. apply anc_trans with b; [|auto]. apply anc_step; auto. }
  intros Pz. apply (Q (Z.to_nat (z + 1)) z). unfold GeoP.prim in Pz. lia. auto.
Qed.

(** ** A cycle around a component *)
Record cyc (d : Z) (Y : list Z) : Prop := {
  cy_ne : Y <> []; cy_lnk : lnk (p d :: Y ++ [p d]); cy_nd : NoDup Y; cy_in : forall y, In y Y -> prim y /\ B s y = N + d }.

Variables (v c : Z).
Hypotheses (Pv : prim v) (Pc : prim c) (Ec : p c = v).
Definition vtx (x : Z) : Prop := exists z, hs s [] x z /\ E z v.
Definition ttx (x : Z) : Prop := exists z u, hs s [] x z /\ tset v u /\ E z u.
Definition rtx (d : Z) : Prop := exists z u, rest c d z /\ tset v u /\ E z u.

Lemma Nc : p c <> NIL.
Proof. rewrite Ec. now apply (prim_ne g0). Qed.
Lemma Lc : v < c.
Proof. rewrite <- Ec. apply (Hp g0 kids St c Pc Nc). Qed.
Lemma tset_lt z : tset v z -> z < v /\ hast v.
Proof. unfold tset, hast. destruct (opl g0); [intros ->; unfold GeoP.prim, NIL in *; split; [lia|auto]|]. intros (Pz & Nv & A). destruct (Hp g0 kids St v Pv Nv) as [Pp Lp]. pose proof (anc_le g0 kids St _ _ Pp A). split; [lia|auto]. Qed.

Section One.
Variable d : Z.
Hypotheses (Ad : act s d) (Acd : anc c d).
Lemma Bd_anc y : prim y -> B s y = N + d -> anc d y /\ p y <> NIL.
Proof. intros Py EB. exact (B_anc g0 kids St NIL [] s d y G (proj1 Ad) Py EB). Qed.
Lemma hang_below L z : (forall y, In y L -> prim y /\ B s y = N + d) -> hang s L z -> below d z /\ v < z.
Proof.
  intros HL (x & Hx & Hz). destruct (HL x Hx) as [Px Bx]. pose proof (hs_prim _ _ _ _ Px Hz) as Pz. destruct (Bd_anc x Px Bx) as [A _].
  assert (A2 : anc d z) by (apply anc_trans with x; [auto|apply (hs_anc _ _ _ _ Hz)]). split; [split; auto|].
  pose proof (anc_le g0 kids St _ _ Pz (anc_trans _ _ _ _ Acd A2)). pose proof Lc. lia.
Qed.
Lemma hang_dis L M : (forall y, In y L -> prim y /\ B s y = N + d) -> (forall y, In y M -> prim y /\ B s y = N + d) -> (forall x, In x L -> ~ In x M) -> dis (hang s L) (hang s M).
Proof.
  intros HL HM Dj z (x & Hx & Zx) (y & Hy & Zy). destruct (HL x Hx) as [Px Bx]. destruct (HM y Hy) as [Py By]. destruct (Bd_anc x Px Bx). destruct (Bd_anc y Py By).
  apply (hs_disj x y z); auto; [congruence|]. intros ->. exact (Dj y Hx Hy).
Qed.
(** The sets that occur in every obstruction. *)
Lemma d_rest_hang L : (forall y, In y L -> prim y /\ B s y = N + d) -> dis (rest c d) (hang s L).
Proof. intros HL z (_ & _ & H) H2. apply H. apply (hang_below L z HL H2). Qed.
Lemma d_rest_v : dis (rest c d) (fun z => z = v).
Proof. intros z (Pz & A & _) ->. pose proof (anc_le g0 kids St _ _ Pv A). pose proof Lc. lia. Qed.
Lemma d_rest_t : dis (rest c d) (tset v).
Proof. intros z (Pz & A & _) T. pose proof (anc_le g0 kids St _ _ Pz A). pose proof Lc. destruct (tset_lt z T). lia. Qed.
Lemma d_hang_v L : (forall y, In y L -> prim y /\ B s y = N + d) -> dis (hang s L) (fun z => z = v).
Proof. intros HL z H ->. destruct (hang_below L v HL H). lia. Qed.
Lemma d_hang_t L : (forall y, In y L -> prim y /\ B s y = N + d) -> dis (hang s L) (tset v).
Proof. intros HL z H T. destruct (hang_below L z HL H). destruct (tset_lt z T). lia. Qed.
Lemma d_v_t : dis (fun z => z = v) (tset v).
Proof. intros z -> T. destruct (tset_lt v T). lia. Qed.
Lemma t_v_t : hast v -> tch (fun z => z = v) (tset v).
Proof. pose proof Eap as A. unfold tset, hast, apexed in *. destruct (opl g0); [exists v, NIL; auto|]. intros [Nv|Nv]; [discriminate|]. exists v, (p v). split; [auto|]. split; [|auto]. split; [apply (Hp g0 kids St v Pv Nv)|]. split; [auto|constructor]. Qed.
Lemma t_hang_v L x : In x L -> vtx x -> tch (hang s L) (fun z => z = v).
Proof. intros Hx (z & Hz & Ez). exists z, v. split; [exists x; auto|auto]. Qed.
Lemma t_hang_t L x : In x L -> ttx x -> tch (hang s L) (tset v).
Proof. intros Hx (z & u & Hz & Tu & Ez). exists z, u. split; [exists x; auto|auto]. Qed.
Lemma hang_self L x : In x L -> hang s L x.
Proof. intros Hx. exists x. split; [auto|now left]. Qed.
Lemma ttx_nv x : ttx x -> hast v.
Proof. intros (z & u & _ & T & _). apply (tset_lt u T). Qed.
Lemma V_prim z : vok z <-> In z vlist.
Proof.
  unfold vok, vlist. destruct (opl g0); cbn [In]; rewrite zr_prim; unfold primary, GeoP.prim; split; [intros [H|[_ H]]; auto|intros [H|H]; auto|intros [H|[Q _]]; [auto|discriminate]|auto].
Qed.
Lemma vok_prim z : prim z -> vok z.
Proof. intros H. left. exact H. Qed.

Section Arcs.
Variables (Y L1 L2 L3 : list Z).
Hypotheses (HY : cyc d Y) (EY : Y = L1 ++ L2 ++ L3) (N1 : L1 <> []) (N2 : L2 <> []).
Lemma L1_in y : In y L1 -> prim y /\ B s y = N + d.
Proof. intros H. apply (cy_in _ _ HY). rewrite EY. apply in_app_iff. auto. Qed.
Lemma L2_in y : In y L2 -> prim y /\ B s y = N + d.
Proof. intros H. apply (cy_in _ _ HY). rewrite EY, !in_app_iff. auto. Qed.
Lemma L3_in y : In y L3 -> prim y /\ B s y = N + d.
Proof. intros H. apply (cy_in _ _ HY). rewrite EY, !in_app_iff. auto. Qed.
Lemma L_dis : (forall x, In x L1 -> ~ In x L2) /\ (forall x, In x L1 -> ~ In x L3) /\ (forall x, In x L2 -> ~ In x L3).
Proof.
  pose proof (cy_nd _ _ HY) as Nd. rewrite EY in Nd. split; [|split].
  - intros x H1 H2. apply (NoDup_app_disj _ _ x Nd H1). apply in_app_iff. auto.
  - intros x H1 H2. apply (NoDup_app_disj _ _ x Nd H1). apply in_app_iff. auto.
  - intros x H1 H2. apply NoDup_app_r in Nd. apply (NoDup_app_disj _ _ x Nd H1 H2).
Qed.
Lemma c_hang L A B0 : Y = A ++ L ++ B0 -> L <> [] -> conp (hang s L).
Proof.
  intros E0 Ne. apply hang_conp; [auto| |].
  - pose proof (cy_lnk _ _ HY) as HL. rewrite E0 in HL. change (p d :: (A ++ L ++ B0) ++ [p d]) with ((p d :: A ++ L ++ B0) ++ [p d]) in HL. apply lnk_l in HL.
    change (p d :: A ++ L ++ B0) with ((p d :: A) ++ L ++ B0) in HL. apply lnk_r in HL. now apply lnk_l in HL.
  - intros x Hx. apply (cy_in _ _ HY). rewrite E0, !in_app_iff. auto.
Qed.
Lemma t_two A L M B0 : Y = A ++ L ++ M ++ B0 -> L <> [] -> M <> [] -> tch (hang s L) (hang s M).
Proof.
  intros E0 Nl Nm. destruct (list_snoc L) as [->|(l & x & ->)]; [congruence|]. destruct M as [|y m]; [congruence|]. exists x, y.
  split; [apply hang_self, in_app_iff; right; now left|]. split; [apply hang_self; now left|].
  pose proof (cy_lnk _ _ HY) as HL. rewrite E0 in HL. apply (lnk_mid E ((p d :: A) ++ l) x y ((m ++ B0) ++ [p d])). repeat (cbn [app] in HL; rewrite <- app_assoc in HL). repeat (cbn [app]; rewrite <- app_assoc). exact HL.
Qed.
End Arcs.

Lemma v_ok : conp (fun z => z = v) /\ (forall z, z = v -> vok z).
Proof. split; [apply conp_one|]. intros z ->. now apply vok_prim. Qed.
Lemma t_ok : hast v -> conp (tset v) /\ (forall z, tset v z -> vok z).
Proof. intros Nv. split; [now apply tset_conp|]. unfold tset, vok. destruct (opl g0); [auto|]. intros z (H & _). left. exact H. Qed.
Lemma hang_ok Y L A B0 : cyc d Y -> Y = A ++ L ++ B0 -> L <> [] -> conp (hang s L) /\ (forall z, hang s L z -> vok z).
Proof.
  intros HY E0 Ne. split; [eapply c_hang; eauto|]. intros z H. apply vok_prim. apply (hang_below L z); [|exact H]. intros y Hy. apply (cy_in _ _ HY). rewrite E0, !in_app_iff. auto.
Qed.
Lemma v_dec : decp (fun z => z = v).
Proof. intros z. apply Z.eq_dec. Qed.

Hypothesis Ncd : d <> c.
Lemma Apd : prim (p d) /\ anc c (p d) /\ p d < d.
Proof.
  destruct Ad as (A1 & A2 & _). destruct (anc_up g0 _ _ Acd ltac:(congruence)) as [_ A]. destruct (Hp g0 kids St d A1 A2). auto.
Qed.
Lemma rest_pd : rest c d (p d).
Proof. destruct Apd as (P1 & A1 & L1). split; [auto|]. split; [auto|]. intros Q. pose proof (anc_le g0 kids St _ _ P1 Q). lia. Qed.
Lemma rest_c : rest c d c.
Proof. split; [auto|]. split; [constructor|]. intros Q. pose proof (anc_le g0 kids St _ _ Pc Q). pose proof (anc_le g0 kids St _ _ (proj1 Ad) Acd). lia. Qed.
Lemma t_rest_v : tch (rest c d) (fun z => z = v).
Proof. exists c, v. split; [apply rest_c|]. split; [auto|]. rewrite <- Ec. apply Etree; [auto|apply Nc]. Qed.
Lemma rest_ok : conp (rest c d) /\ (forall z, rest c d z -> vok z).
Proof. split; [apply rest_conp; [auto|apply rest_c]|]. intros z (H & _). now apply vok_prim. Qed.
Section Arcs2.
Variables (Y L1 L2 L3 : list Z).
Hypotheses (HY : cyc d Y) (EY : Y = L1 ++ L2 ++ L3) (N1 : L1 <> []).
Lemma t_rest_1 : tch (rest c d) (hang s L1).
Proof.
  pose proof (cy_lnk _ _ HY) as HL. rewrite EY in HL. destruct L1 as [|x l]; [congruence|]. cbn [app lnk] in HL. exists (p d), x. split; [apply rest_pd|]. split; [apply hang_self; now left|apply HL].
Qed.
Lemma t_last L A : Y = A ++ L -> L <> [] -> tch (hang s L) (rest c d).
Proof.
  intros E0 Nl. destruct (list_snoc L) as [->|(l & x & ->)]; [congruence|]. exists x, (p d). split; [apply hang_self, in_app_iff; right; now left|]. split; [apply rest_pd|].
  pose proof (cy_lnk _ _ HY) as HL. rewrite E0 in HL. apply (lnk_mid E ((p d :: A) ++ l) x (p d) []). repeat (cbn [app] in HL; rewrite <- app_assoc in HL). repeat (cbn [app]; rewrite <- app_assoc). exact HL.
Qed.
End Arcs2.
Ltac facts Y HY E0 L1 L2 L3 N1 N2 N3 :=
  pose proof (L1_in Y L1 L2 L3 HY E0) as I1; pose proof (L2_in Y L1 L2 L3 HY E0) as I2; pose proof (L3_in Y L1 L2 L3 HY E0) as I3; destruct (L_dis Y L1 L2 L3 HY E0) as (D12 & D13 & D23);
  pose proof (hang_ok Y L1 [] (L2 ++ L3) HY E0 N1) as O1; pose proof (hang_ok Y L2 L1 L3 HY E0 N2) as O2;
  pose proof (hang_ok Y L3 (L1 ++ L2) [] HY ltac:(rewrite app_nil_r, <- app_assoc; exact E0) N3) as O3;
  pose proof (hang_dec s L1 (fun y Hy => proj1 (I1 y Hy))) as Dc1; pose proof (hang_dec s L2 (fun y Hy => proj1 (I2 y Hy))) as Dc2; pose proof (hang_dec s L3 (fun y Hy => proj1 (I3 y Hy))) as Dc3;
  pose proof rest_ok as Or; pose proof v_ok as Ov; pose proof (rest_dec c d) as Dcr; pose proof v_dec as Dcv; pose proof (tset_dec v Pv) as Dct;
  pose proof (hang_dis L1 L2 I1 I2 D12) as X12; pose proof (hang_dis L1 L3 I1 I3 D13) as X13; pose proof (hang_dis L2 L3 I2 I3 D23) as X23;
  pose proof (d_rest_hang L1 I1) as Xr1; pose proof (d_rest_hang L2 I2) as Xr2; pose proof (d_rest_hang L3 I3) as Xr3;
  pose proof (d_hang_v L1 I1) as Xv1; pose proof (d_hang_v L2 I2) as Xv2; pose proof (d_hang_v L3 I3) as Xv3;
  pose proof (d_hang_t L1 I1) as Xt1; pose proof (d_hang_t L2 I2) as Xt2; pose proof (d_hang_t L3 I3) as Xt3;
  pose proof d_rest_v as Xrv; pose proof d_rest_t as Xrt; pose proof d_v_t as Xvt;
  pose proof (t_two Y HY [] L1 L2 L3 E0 N1 N2) as H12; pose proof (t_two Y HY L1 L2 L3 [] ltac:(rewrite app_nil_r; exact E0) N2 N3) as H23;
  pose proof (t_rest_1 Y L1 L2 L3 HY E0 N1) as Hr1; pose proof (t_last Y HY L3 (L1 ++ L2) ltac:(rewrite <- app_assoc; exact E0) N3) as H3r; pose proof t_rest_v as Hrv.
(** Positions t, v, t. *)
Lemma ob_a Y Y0 x1 Y1 x2 Y2 x3 Y3 : cyc d Y -> Y = Y0 ++ x1 :: Y1 ++ x2 :: Y2 ++ x3 :: Y3 -> ttx x1 -> vtx x2 -> ttx x3 -> K.
Proof.
  intros HY EY T1 V2 T3.
  assert (E0 : Y = (Y0 ++ x1 :: Y1) ++ (x2 :: Y2) ++ (x3 :: Y3)) by (rewrite EY, <- !app_assoc; reflexivity).
  assert (N1 : Y0 ++ x1 :: Y1 <> []) by (destruct Y0; discriminate). assert (Hx1 : In x1 (Y0 ++ x1 :: Y1)) by (apply in_app_iff; right; now left).
  generalize dependent (Y0 ++ x1 :: Y1). intros L1. intros. assert (Hx2 : In x2 (x2 :: Y2)) by now left. assert (Hx3 : In x3 (x3 :: Y3)) by now left.
  assert (N2 : x2 :: Y2 <> []) by discriminate. assert (N3 : x3 :: Y3 <> []) by discriminate. clear EY. generalize dependent (x2 :: Y2). intros L2. intros. generalize dependent (x3 :: Y3). intros L3. intros.
  facts Y HY E0 L1 L2 L3 N1 N2 N3. assert (Nv := ttx_nv _ T1). pose proof (t_ok Nv) as Ot. pose proof (t_v_t Nv) as Hvt.
  pose proof (t_hang_v L2 x2 Hx2 V2) as H2v. pose proof (t_hang_t L1 x1 Hx1 T1) as H1t. pose proof (t_hang_t L3 x3 Hx3 T3) as H3t.
  apply (K33_of E Esym vok vlist V_prim (rest c d) (hang s L2) (tset v) (hang s L1) (hang s L3) (fun z => z = v)); auto.
  - fall; auto; (apply Or || apply Ov || apply Ot || apply O1 || apply O2 || apply O3).
  - fall; auto; apply dis_sym; auto.
  - fall; auto; apply tch_sym; auto.
Qed.
(** Positions v, t, v, and the rest reaches above. *)
Lemma ob_b Y Y0 x1 Y1 x2 Y2 x3 Y3 : cyc d Y -> Y = Y0 ++ x1 :: Y1 ++ x2 :: Y2 ++ x3 :: Y3 -> rtx d -> vtx x1 -> ttx x2 -> vtx x3 -> K.
Proof.
  intros HY EY R V1 T2 V3.
  assert (E0 : Y = (Y0 ++ x1 :: Y1) ++ (x2 :: Y2) ++ (x3 :: Y3)) by (rewrite EY, <- !app_assoc; reflexivity).
  assert (N1 : Y0 ++ x1 :: Y1 <> []) by (destruct Y0; discriminate). assert (Hx1 : In x1 (Y0 ++ x1 :: Y1)) by (apply in_app_iff; right; now left).
  generalize dependent (Y0 ++ x1 :: Y1). intros L1. intros. assert (Hx2 : In x2 (x2 :: Y2)) by now left. assert (Hx3 : In x3 (x3 :: Y3)) by now left.
  assert (N2 : x2 :: Y2 <> []) by discriminate. assert (N3 : x3 :: Y3 <> []) by discriminate. clear EY. generalize dependent (x2 :: Y2). intros L2. intros. generalize dependent (x3 :: Y3). intros L3. intros.
  facts Y HY E0 L1 L2 L3 N1 N2 N3. assert (Nv := ttx_nv _ T2). pose proof (t_ok Nv) as Ot. pose proof (t_v_t Nv) as Hvt.
  pose proof (t_hang_t L2 x2 Hx2 T2) as H2t. pose proof (t_hang_v L1 x1 Hx1 V1) as H1v. pose proof (t_hang_v L3 x3 Hx3 V3) as H3v.
  assert (Hrt : tch (rest c d) (tset v)) by (destruct R as (z & u & R1 & R2 & R3); exists z, u; auto).
  apply (K33_of E Esym vok vlist V_prim (hang s L1) (hang s L3) (tset v) (rest c d) (hang s L2) (fun z => z = v)); auto.
  - fall; auto; (apply Or || apply Ov || apply Ot || apply O1 || apply O2 || apply O3).
  - fall; auto; apply dis_sym; auto.
  - fall; auto; apply tch_sym; auto.
Qed.
(** Two vertices that reach both, and the rest reaches above. *)
Lemma ob_c Y Y0 x1 Y1 x2 Y2 : cyc d Y -> Y = Y0 ++ x1 :: Y1 ++ x2 :: Y2 -> rtx d -> vtx x1 -> ttx x1 -> vtx x2 -> ttx x2 -> K.
Proof.
  intros HY EY R V1 T1 V2 T2.
  assert (E0 : Y = (Y0 ++ x1 :: Y1) ++ (x2 :: Y2) ++ []) by (rewrite EY, <- !app_assoc, app_nil_r; reflexivity).
  assert (N1 : Y0 ++ x1 :: Y1 <> []) by (destruct Y0; discriminate). assert (Hx1 : In x1 (Y0 ++ x1 :: Y1)) by (apply in_app_iff; right; now left).
  generalize dependent (Y0 ++ x1 :: Y1). intros L1. intros. assert (Hx2 : In x2 (x2 :: Y2)) by now left.
  assert (N2 : x2 :: Y2 <> []) by discriminate. clear EY. generalize dependent (x2 :: Y2). intros L2. intros.
  pose proof (L1_in Y L1 L2 [] HY E0) as I1. pose proof (L2_in Y L1 L2 [] HY E0) as I2. destruct (L_dis Y L1 L2 [] HY E0) as (D12 & _ & _).
  pose proof (hang_ok Y L1 [] (L2 ++ []) HY E0 N1) as O1. pose proof (hang_ok Y L2 L1 [] HY E0 N2) as O2.
  pose proof (hang_dec s L1 (fun y Hy => proj1 (I1 y Hy))) as Dc1. pose proof (hang_dec s L2 (fun y Hy => proj1 (I2 y Hy))) as Dc2.
  pose proof rest_ok as Or. pose proof v_ok as Ov. pose proof (rest_dec c d) as Dcr. pose proof v_dec as Dcv. pose proof (tset_dec v Pv) as Dct.
  pose proof (hang_dis L1 L2 I1 I2 D12) as X12. pose proof (d_rest_hang L1 I1) as Xr1. pose proof (d_rest_hang L2 I2) as Xr2.
  pose proof (d_hang_v L1 I1) as Xv1. pose proof (d_hang_v L2 I2) as Xv2. pose proof (d_hang_t L1 I1) as Xt1. pose proof (d_hang_t L2 I2) as Xt2.
  pose proof d_rest_v as Xrv. pose proof d_rest_t as Xrt. pose proof d_v_t as Xvt.
  pose proof (t_two Y HY [] L1 L2 [] E0 N1 N2) as H12. pose proof (t_rest_1 Y L1 L2 [] HY E0 N1) as Hr1. pose proof (t_last Y HY L2 L1 ltac:(rewrite app_nil_r in E0; exact E0) N2) as H2r. pose proof t_rest_v as Hrv.
  assert (Nv := ttx_nv _ T2). pose proof (t_ok Nv) as Ot. pose proof (t_v_t Nv) as Hvt.
  pose proof (t_hang_t L2 x2 Hx2 T2) as H2t. pose proof (t_hang_t L1 x1 Hx1 T1) as H1t. pose proof (t_hang_v L1 x1 Hx1 V1) as H1v. pose proof (t_hang_v L2 x2 Hx2 V2) as H2v.
  assert (Hrt : tch (rest c d) (tset v)) by (destruct R as (z & u & R1 & R2 & R3); exists z, u; auto).
  apply (K5_of E Esym vok vlist V_prim (rest c d) (hang s L1) (hang s L2) (fun z => z = v) (tset v)); auto.
  - fall; auto; (apply Or || apply Ov || apply Ot || apply O1 || apply O2).
  - fall; auto; apply dis_sym; auto.
  - fall; auto; apply tch_sym; auto.
Qed.
End One.

(** Two children of one vertex that reach both, and a third part. *)
Definition both (d : Z) : Prop := (exists z, below d z /\ E z v) /\ (exists z u, below d z /\ tset v u /\ E z u).
Lemma below_dis d1 d2 : prim d1 -> prim d2 -> p d1 = p d2 -> p d1 <> NIL -> d1 <> d2 -> dis (below d1) (below d2).
Proof.
  intros P1 P2 Ep Np Ne z [Pz A1] [_ A2]. assert (One : forall a b, prim a -> prim b -> p a = p b -> p a <> NIL -> a <> b -> anc a b -> False).
  { intros a b Pa Pb Epp Npp Nab A. destruct (anc_up g0 _ _ A Nab) as [N1 A']. rewrite <- Epp in A'. destruct (Hp g0 kids St a Pa Npp) as [Pp Lp]. pose proof (anc_le g0 kids St _ _ Pp A'). lia. }
  destruct (Z_le_dec d1 d2); [apply (One d1 d2)|apply (One d2 d1)]; auto; [apply (anc_total g0 kids St) with z; auto|congruence|apply (anc_total g0 kids St) with z; auto; lia].
Qed.
Lemma ob_d W d1 d2 (P : Z -> Prop) : prim W -> anc c W -> prim d1 -> prim d2 -> p d1 = W -> p d2 = W -> d1 <> d2 -> both d1 -> both d2 -> decp P -> conp P -> (forall z, P z -> prim z /\ v < z /\ z <> W /\ ~ anc d1 z /\ ~ anc d2 z) -> tch P (fun z => z = W) -> tch P (fun z => z = v) -> tch P (tset v) -> K.
Proof.
  intros PW AW P1 P2 E1 E2 Ne [B1v B1t] [B2v B2t] DP CP HP TW Tv Tt.
  assert (NW := prim_ne g0 W PW). assert (LW : c <= W) by (apply (anc_le g0 kids St); auto). pose proof Lc as Hc.
  assert (Lo : forall d z, prim d -> p d = W -> below d z -> W < z). { intros d z Pd Ed [Pz A]. pose proof (anc_le g0 kids St _ _ Pz A). assert (p d <> NIL) by congruence. pose proof (proj2 (Hp g0 kids St d Pd H0)). lia. }
  assert (Nv : hast v) by (destruct B1t as (z & u & _ & T & _); apply (tset_lt u T)).
  pose proof (t_ok Nv) as Ot. pose proof v_ok as Ov. pose proof v_dec as Dcv. pose proof (tset_dec v Pv) as Dct. pose proof (t_v_t Nv) as Hvt. pose proof d_v_t as Xvt.
  assert (Xd : dis (below d1) (below d2)) by (apply below_dis; congruence).
  assert (XW1 : dis (fun z => z = W) (below d1)) by (intros z -> Q; apply (Lo d1) in Q; auto; lia).
  assert (XW2 : dis (fun z => z = W) (below d2)) by (intros z -> Q; apply (Lo d2) in Q; auto; lia).
  assert (Xv1 : dis (fun z => z = v) (below d1)) by (intros z -> Q; apply (Lo d1) in Q; auto; lia).
  assert (Xv2 : dis (fun z => z = v) (below d2)) by (intros z -> Q; apply (Lo d2) in Q; auto; lia).
  assert (Xt1 : dis (tset v) (below d1)) by (intros z T Q; apply (Lo d1) in Q; auto; destruct (tset_lt z T); lia).
  assert (Xt2 : dis (tset v) (below d2)) by (intros z T Q; apply (Lo d2) in Q; auto; destruct (tset_lt z T); lia).
  assert (XWv : dis (fun z => z = W) (fun z => z = v)) by (intros z -> Q; lia).
  assert (XWt : dis (fun z => z = W) (tset v)) by (intros z -> T; destruct (tset_lt W T); lia).
  assert (XP1 : dis P (below d1)) by (intros z Hz [_ A]; destruct (HP z Hz) as (_ & _ & _ & Q & _); auto).
  assert (XP2 : dis P (below d2)) by (intros z Hz [_ A]; destruct (HP z Hz) as (_ & _ & _ & _ & Q); auto).
  assert (XPW : dis P (fun z => z = W)) by (intros z Hz A; destruct (HP z Hz) as (_ & _ & Q & _); auto).
  assert (XPv : dis P (fun z => z = v)) by (intros z Hz A; destruct (HP z Hz) as (_ & Q & _); lia).
  assert (XPt : dis P (tset v)) by (intros z Hz A; destruct (HP z Hz) as (_ & Q & _); destruct (tset_lt z A); lia).
  assert (HW1 : tch (fun z => z = W) (below d1)) by (exists W, d1; split; [auto|]; split; [split; [auto|constructor]|]; apply Esym; rewrite <- E1; apply Etree; congruence).
  assert (HW2 : tch (fun z => z = W) (below d2)) by (exists W, d2; split; [auto|]; split; [split; [auto|constructor]|]; apply Esym; rewrite <- E2; apply Etree; congruence).
  assert (Hv1 : tch (fun z => z = v) (below d1)) by (destruct B1v as (z & Q1 & Q2); exists v, z; auto).
  assert (Hv2 : tch (fun z => z = v) (below d2)) by (destruct B2v as (z & Q1 & Q2); exists v, z; auto).
  assert (Ht1 : tch (tset v) (below d1)) by (destruct B1t as (z & u & Q1 & Q2 & Q3); exists u, z; auto).
  assert (Ht2 : tch (tset v) (below d2)) by (destruct B2t as (z & u & Q1 & Q2 & Q3); exists u, z; auto).
  apply (K33_of E Esym vok vlist V_prim (fun z => z = W) (fun z => z = v) (tset v) (below d1) (below d2) P); auto using below_dec.
  - intros z. apply Z.eq_dec.
  - assert (O1 : forall d, prim d -> conp (below d) /\ (forall z, below d z -> vok z)) by (intros d Pd; split; [now apply below_conp|intros z [Q _]; now apply vok_prim]).
    fall; auto; try apply Ot; try apply Ov; try (now apply O1); try apply conp_one. + intros z ->. now apply vok_prim. + intros z Hz. apply vok_prim. apply HP, Hz.
  - fall; auto; apply dis_sym; auto.
  - fall; auto; apply tch_sym; auto.
Qed.
(** The third part is what follows W around its component, with the rest of the tree if that component is not the first. *)
Lemma ob_e W d1 d2 b Y Y1 Y2 : prim W -> act s b -> anc c b -> B s W = N + b -> cyc b Y -> Y = Y1 ++ W :: Y2 -> act s d1 -> act s d2 -> p d1 = W -> p d2 = W -> d1 <> d2 -> both d1 -> both d2 -> (exists y, In y Y2 /\ ttx y) \/ (b <> c /\ rtx b) -> K.
Proof.
  intros PW Ab Acb BW HY EY A1 A2 E1 E2 Ne B1 B2 Third.
  assert (I2 : forall y, In y Y2 -> prim y /\ B s y = N + b) by (intros y Hy; apply (cy_in _ _ HY); rewrite EY, in_app_iff; right; now right).
  assert (NW : ~ In W Y2) by (pose proof (cy_nd _ _ HY) as Nd; rewrite EY in Nd; apply NoDup_app_r in Nd; now inversion Nd).
  destruct (Bd_anc b Ab W PW BW) as [AbW NpW]. assert (AW : anc c W) by (eapply anc_trans; eauto).
  assert (HH : forall z, hang s Y2 z -> prim z /\ v < z /\ z <> W /\ ~ anc d1 z /\ ~ anc d2 z).
  { intros z Hz. destruct (hang_below b Ab Acb Y2 z I2 Hz) as [[Pz Az] Lz]. split; [auto|]. split; [auto|]. destruct Hz as (y & Hy & Hz). destruct (I2 y Hy) as [Py By]. destruct (Bd_anc b Ab y Py By) as [_ Npy].
    assert (D : forall t, hs s [] W t -> t = z -> False). { intros t Ht ->. apply (hs_disj W y z); auto; [congruence|]. intros ->. auto. }
    split; [intros ->; apply (D W); auto; now left|]. split; intros Q; (apply (D z); [right|auto]).
    - exists d1. split; [auto|]. split; [intros []|]. auto.
    - exists d2. split; [auto|]. split; [intros []|]. auto. }
  assert (HR : b <> c -> forall z, rest c b z -> prim z /\ v < z /\ z <> W /\ ~ anc d1 z /\ ~ anc d2 z).
  { intros Nbc z (Pz & Az & Nz). split; [auto|]. split; [pose proof (anc_le g0 kids St _ _ Pz Az); pose proof Lc; lia|]. split; [intros ->; auto|].
    assert (Q : forall d, act s d -> p d = W -> ~ anc d z). { intros d (D1 & D2 & _) Ed Q. apply Nz. apply anc_trans with d; [|auto]. apply anc_step; [auto|]. now rewrite Ed. }
    auto. }
  destruct A1 as (P1 & Q1 & _), A2 as (P2 & Q2 & _).
  assert (Lk : lnk (W :: Y2 ++ [p b])). { pose proof (cy_lnk _ _ HY) as HL. rewrite EY in HL. change (p b :: (Y1 ++ W :: Y2) ++ [p b]) with ((p b :: Y1 ++ W :: Y2) ++ [p b]) in HL. rewrite app_comm_cons, <- app_assoc in HL. now apply lnk_r in HL. }
  assert (TW : Y2 <> [] -> tch (hang s Y2) (fun z => z = W)). { intros Nn. destruct Y2 as [|y l]; [congruence|]. cbn [app EmbC1.lnk] in Lk. exists y, W. split; [apply hang_self; now left|]. split; [auto|]. apply Esym. apply Lk. }
  assert (Cn : Y2 <> [] -> conp (hang s Y2)). { intros Nn. apply hang_conp; auto; [|intros y Hy; now apply I2]. change (W :: Y2 ++ [p b]) with ([W] ++ Y2 ++ [p b]) in Lk. apply lnk_r in Lk. now apply lnk_l in Lk. }
  destruct (Z.eq_dec b c) as [->|Nbc].
  - destruct Third as [(y & Hy & Ty)|[Q _]]; [|congruence]. assert (Nn : Y2 <> []) by (intros ->; inversion Hy).
    apply (ob_d W d1 d2 (hang s Y2)); auto.
    + apply hang_dec. intros z Hz. now apply I2.
    + destruct (list_snoc Y2) as [->|(l & x & ->)]; [congruence|]. exists x, v. split; [apply hang_self, in_app_iff; right; now left|]. split; [auto|]. rewrite Ec in Lk.
      apply (lnk_mid E (W :: l) x v []). cbn [app]. rewrite <- app_assoc in Lk. exact Lk.
    + eapply t_hang_t; eauto.
  - destruct Y2 as [|y l].
    + apply (ob_d W d1 d2 (rest c b)); auto.
      * apply rest_dec.
      * apply (rest_ok b Ab Acb Nbc).
      * cbn [app EmbC1.lnk] in Lk. exists (p b), W. split; [apply (rest_pd b Ab Acb Nbc)|]. split; [auto|]. apply Esym. apply Lk.
      * apply (t_rest_v b Ab Acb Nbc).
      * destruct Third as [(y & [] & _)|[_ (z & u & R1 & R2 & R3)]]. exists z, u. auto.
    + assert (Nn : y :: l <> []) by discriminate.
      assert (Tr : tch (hang s (y :: l)) (rest c b)) by (apply (t_last b Ab Acb Nbc Y HY (y :: l) (Y1 ++ [W])); [rewrite <- app_assoc; exact EY|auto]).
      apply (ob_d W d1 d2 (fun z => rest c b z \/ hang s (y :: l) z)); auto.
      * intros z. destruct (rest_dec c b z); [left; auto|]. destruct (hang_dec s (y :: l) (fun t Ht => proj1 (I2 t Ht)) z); [left; auto|right; tauto].
      * apply conp_union; auto. apply (rest_ok b Ab Acb Nbc). now apply tch_sym.
      * intros z [Hz|Hz]; auto.
      * destruct (TW Nn) as (a & b' & Q3 & Q4 & Q5). exists a, b'. auto.
      * destruct (t_rest_v b Ab Acb Nbc) as (a & b' & Q3 & Q4 & Q5). exists a, b'. auto.
      * destruct Third as [(x & Hx & Tx)|[_ (z & u & R1 & R2 & R3)]]; [|exists z, u; auto]. destruct (t_hang_t (y :: l) x Hx Tx) as (a & b' & Q3 & Q4 & Q5). exists a, b'. auto.
Qed.
End Hang.
