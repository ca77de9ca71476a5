(** * EmbC3: what the walk down keeps so that it is blocked only when there is a K5 or K3,3 minor. *)
From Coq Require Import ZifyBool Permutation Sorted.
From Verif Require Import Base BaseP GraphRec GraphM GraphSpec GSimp LinkP GraphP2 ListM ListSpec ListP DFSM DFSSpec DFSP TestP EmbM EmbSpec EmbP FaceP GeoP GeoP2 EmbInv EmbStep EmbTree EmbWalk EmbUp EmbJoin EmbDown PlanSpec EmbC1 EmbC2.

Lemma em_False (P : Prop) : (P \/ ~ P -> False) -> False.
Proof. tauto. Qed.
Lemma sub_two k l1 l2 : sub k (l1 ++ l2) -> exists k1 k2, k = k1 ++ k2 /\ sub k1 l1 /\ sub k2 l2.
Proof.
  revert k. induction l1 as [|x l1 IH]; intros k H; [exists [], k; split; [auto|]; split; [constructor|auto]|]. cbn [app] in H. inversion H; subst.
  - exists [], []. split; [auto|]. split; constructor.
  - destruct (IH _ H2) as (k1 & k2 & -> & H3 & H4). exists (x :: k1), k2. split; [auto|]. split; [now constructor|auto].
  - destruct (IH _ H2) as (k1 & k2 & -> & H3 & H4). exists k1, k2. split; [auto|]. split; [now constructor|auto].
Qed.
Lemma sub3 x y z L : sub [x; y; z] L -> exists L0 L1 L2 L3, L = L0 ++ x :: L1 ++ y :: L2 ++ z :: L3.
Proof.
  intros H. destruct (sub_split [] x [y; z] L H) as (L0 & L1 & -> & _ & H1). destruct (sub_split [] y [z] L1 H1) as (L2 & L3 & -> & _ & H2).
  destruct (sub_split [] z [] L3 H2) as (L4 & L5 & -> & _ & _). eauto.
Qed.
Lemma sub2 x y L : sub [x; y] L -> exists L0 L1 L2, L = L0 ++ x :: L1 ++ y :: L2.
Proof.
  intros H. destruct (sub_split [] x [y] L H) as (L0 & L1 & -> & _ & H1). destruct (sub_split [] y [] L1 H1) as (L2 & L3 & -> & _ & H2). eauto.
Qed.
Lemma sub1 x L : In x L -> sub [x] L.
Proof. intros H. induction L as [|y L IH]; [destruct H|]. destruct H as [->|H]; [constructor; constructor|constructor; auto]. Qed.
Lemma sub_len k l : sub k l -> (length k <= length l)%nat.
Proof. induction 1; cbn [length]; lia. Qed.
(** The first element is before any other. *)
Lemma sub_hd k x L : sub (x :: k) L -> x <> hd NIL L -> sub (hd NIL L :: x :: k) L.
Proof. intros H Ne. destruct L as [|y L]; [inversion H|]. cbn [hd] in *. inversion H; subst; [congruence|]. now constructor. Qed.
Lemma sub_last k x L : sub (k ++ [x]) L -> x <> last L NIL -> sub (k ++ [x; last L NIL]) L.
Proof.
  intros H Ne. apply sub_rev in H. rewrite rev_app_distr in H. cbn [rev app] in H. apply sub_hd in H; [|now rewrite hd_rev]. rewrite hd_rev in H. apply sub_rev in H. rewrite rev_involutive in H.
  cbn [rev] in H. rewrite rev_involutive in H. rewrite <- !app_assoc in H. exact H.
Qed.
Lemma sub_nd x y L : NoDup L -> sub [x; y] L -> x <> y.
Proof. intros Nd H ->. destruct (sub2 _ _ _ H) as (L0 & L1 & L2 & ->). apply NoDup_app_r in Nd. apply NoDup_cons_iff in Nd. apply (proj1 Nd). apply in_app_iff. right. now left. Qed.

Section Comp.
Variables (g0 : graph) (kids : Z -> list Z).
Hypothesis St : static g0 kids.
Local Notation N := (gN g0).
Local Notation p := (viParent (gVI g0)).
Local Notation prim := (prim (gN g0)).
Local Notation isroot := (isroot (gN g0)).
Local Notation geo := (geo (gN g0) (viParent (gVI g0))).
Local Notation anc := (ancestor (viParent (gVI g0))).
Local Notation via := (via g0).
Local Notation act := (act g0).
Local Notation hs := (hs g0).
Local Notation chain := (chain g0).
Local Notation dinv := (EmbDown.dinv g0 kids).
Variable E : Z -> Z -> Prop.
Local Notation lnk := (lnk E).
Local Notation K := (kuratowski (vok g0) E).
Local Notation cyc := (cyc g0 E).

(** ** Definitions *)
(** x, or a part hanging from x by a component whose root is not in [Rs], has an edge to v; to a vertex before v.
    Asked for an outerplanar embedding, every vertex counts as having an edge to one before v. *)
Definition vat (v : Z) (a : est) (Rs : list Z) (x : Z) : Prop := exists f, In f (fw a v) /\ hs (eV a) Rs x (nb (eV a) f).
Definition tat (v : Z) (a : est) (Rs : list Z) (x : Z) : Prop := opl g0 = true \/ exists u f, u < v /\ In f (fw a u) /\ hs (eV a) Rs x (nb (eV a) f).
Definition uact (a : est) (d x : Z) : Prop := opl g0 = true \/ exists u f, u < p d /\ In f (fw a u) /\ hs (eV a) [] x (nb (eV a) f).
(** The ends of the external face of a component lead above its root, unless nothing does. *)
Definition ends (a : est) (d : Z) : Prop :=
  (length (X (eV a) (N + d)) <= 2)%nat \/ (forall u f, u < p d -> In f (fw a u) -> ~ anc d (nb (eV a) f)) \/
  uact a d (hd NIL (X (eV a) (N + d))) /\ uact a d (last (X (eV a) (N + d)) NIL).
Definition fine (v : Z) (a : est) (Rs L : list Z) : Prop := forall x w y, sub [x; w; y] L -> tat v a Rs x -> vat v a Rs w -> tat v a Rs y -> False.
Definition fpt (v : Z) (a : est) (x : Z) : Prop := opl g0 = true \/ viLeast (gVI g0) x < v \/ exists d, act (eV a) d /\ p d = x /\ viLow (gVI g0) d < v.
Definition pert (a : est) (x : Z) : Prop := pe a x <> NIL \/ prl a x <> [].
Record cinv (v c : Z) (a : est) : Prop := {
  ci_E : forall u f, In f (fw a u) -> E u (nb (eV a) f) /\ f <> NIL;
  ci_least : forall x, prim x -> viLeast (gVI g0) x < v -> viLeast (gVI g0) x < x -> exists f, In f (fw a (viLeast (gVI g0) x)) /\ nb (eV a) f = x;
  ci_low : forall d, prim d -> viLow (gVI g0) d < v -> viLow (gVI g0) d < d -> exists f, In f (fw a (viLow (gVI g0) d)) /\ anc d (nb (eV a) f);
  ci_comp : forall f, In f (fw a v) -> pe a (nb (eV a) f) = f /\ recd g0 v a (nb (eV a) f);
  ci_ord : prlord g0 v a;
  ci_cyc : forall d, act (eV a) d -> exists Y, cyc (eV a) d Y /\ sub (X (eV a) (N + d)) Y;
  ci_ends : forall d, act (eV a) d -> d <> c -> ends a d;
  ci_keep : keep g0 (v + 1) a;
  ci_done : forall u, v < u -> fw a u = [] }.

Lemma hs_incl s Rs Rs' x z : (forall R, In R Rs -> In R Rs') -> hs s Rs' x z -> hs s Rs x z.
Proof. intros H [->|(d & H1 & H2 & H3)]; [now left|]. right. exists d. split; [auto|]. split; [intros Q; auto|auto]. Qed.
Lemma vat_incl v a Rs Rs' x : (forall R, In R Rs -> In R Rs') -> vat v a Rs' x -> vat v a Rs x.
Proof. intros H (f & H1 & H2). exists f. split; [auto|]. eapply hs_incl; eauto. Qed.
Lemma tat_incl v a Rs Rs' x : (forall R, In R Rs -> In R Rs') -> tat v a Rs' x -> tat v a Rs x.
Proof. intros H [Eo|(u & f & H0 & H1 & H2)]; [now left|]. right. exists u, f. split; [auto|]. split; [auto|]. eapply hs_incl; eauto. Qed.
Lemma vat_nil v a Rs x : vat v a Rs x -> vat v a [] x.
Proof. apply vat_incl. intros R []. Qed.
Lemma tat_nil v a Rs x : tat v a Rs x -> tat v a [] x.
Proof. apply tat_incl. intros R []. Qed.

(** ** Pertinence *)
Section Walk.
Variables (a : est) (v c : Z).
Hypotheses (Pv : prim v) (Pc : prim c) (Ec : p c = v).
Hypothesis D : dinv v c a.
Hypothesis C : cinv v c a.
Local Notation G := (d_geo _ _ _ _ _ D).
Local Notation F := (d_fw _ _ _ _ _ D).
Local Notation s := (eV a).

Lemma vc : v < c /\ p c <> NIL.
Proof. assert (p c <> NIL) by (rewrite Ec; now apply (prim_ne g0)). split; [rewrite <- Ec; now apply (Hp g0 kids St)|auto]. Qed.
Lemma c_lt x : prim x -> anc c x -> v < x.
Proof. intros Px A. pose proof (anc_le g0 kids St _ _ Px A). pose proof vc. lia. Qed.
Lemma nb_prim u f : In f (fw a u) -> prim (nb s f) /\ prim u /\ anc u (nb s f).
Proof. intros Hf. destruct (fo_via _ _ F u f Hf) as (c' & V & _). pose proof (via_anc g0 _ _ _ V). destruct V as (V1 & V2 & V3 & V4 & V5). auto. Qed.
Lemma pert_vat x : prim x -> v < x -> pert a x <-> vat v a [] x.
Proof.
  intros Px Lx. split.
  - intros [H|H].
    + destruct (d_pe _ _ _ _ _ D x H) as [H1 H2]. exists (pe a x). split; [auto|]. left. auto.
    + destruct (prl a x) as [|d l] eqn:Ed; [congruence|]. destruct (d_prl _ _ _ _ _ D x d) as (P1 & P2 & P3 & f & P4 & P5); [rewrite Ed; now left|].
      exists f. split; [auto|]. right. exists d. split; [auto|]. split; [intros []|]. split; [auto|]. split; [auto|apply (nb_prim v f P4)].
  - intros (f & Hf & Hh). destruct (ci_comp _ _ _ C f Hf) as [C1 C2]. destruct Hh as [Q|(d & A1 & _ & A3 & A4 & A5)].
    + left. rewrite <- Q, C1. apply (ci_E _ _ _ C v f Hf).
    + right. specialize (C2 d A1 A4 ltac:(lia)). rewrite A3 in C2. intros Q. rewrite Q in C2. destruct C2.
Qed.
Lemma fpt_tat x : prim x -> v < x -> fpt v a x <-> tat v a [] x.
Proof.
  intros Px Lx. split.
  - intros [Eo|[H|(d & A1 & A2 & A3)]]; [now left|right|right].
    + destruct (ci_least _ _ _ C x Px H ltac:(lia)) as (f & F1 & F2). exists (viLeast (gVI g0) x), f. split; [auto|]. split; [auto|]. left. auto.
    + destruct A1 as (B1 & B2 & B3). pose proof (proj2 (Hp g0 kids St d B1 B2)). destruct (ci_low _ _ _ C d B1 A3 ltac:(lia)) as (f & F1 & F2).
      exists (viLow (gVI g0) d), f. split; [auto|]. split; [auto|]. right. exists d. split; [split; auto|]. split; [intros []|]. split; [auto|]. split; [auto|apply (nb_prim _ f F1)].
  - intros [Eo|(u & f & Hu & Hf & [Q|(d & A1 & _ & A3 & A4 & A5)])]; [now left|right|right].
    + left. pose proof (fo_la _ _ F u f Hf). rewrite Q in H. lia.
    + right. exists d. split; [auto|]. split; [auto|]. pose proof (fo_lp _ _ F u f d Hf (proj1 A1) A4). lia.
Qed.
Lemma tset_of u f : opl g0 = false -> In f (fw a u) -> u < v -> anc c (nb s f) -> tset g0 v u.
Proof.
  intros Eo Hf Hu A. unfold tset. rewrite Eo. destruct (nb_prim u f Hf) as (P1 & P2 & P3). assert (Av : anc v (nb s f)).
  { apply anc_trans with c; [|auto]. apply anc_step; [apply vc|]. rewrite Ec. constructor. }
  assert (Auv : anc u v) by (apply (anc_total g0 kids St) with (nb s f); auto; lia). destruct (anc_up g0 _ _ Auv ltac:(lia)) as [Q1 Q2]. split; auto.
Qed.
Hypothesis Esym : forall x y, E x y -> E y x.
Lemma vat_vtx Rs x : vat v a Rs x -> vtx g0 E s v x.
Proof. intros (f & Hf & Hh). exists (nb s f). split; [eapply hs_mono; eauto|]. apply Esym. apply (ci_E _ _ _ C v f Hf). Qed.
Hypothesis Eap : apexed g0 E.
Lemma tset_op : opl g0 = true -> tset g0 v NIL.
Proof. intros Eo. unfold tset. now rewrite Eo. Qed.
Lemma tat_ttx Rs x : prim x /\ anc c x -> tat v a Rs x -> ttx g0 E s v x.
Proof.
  intros [Px A] [Eo|(u & f & Hu & Hf & Hh)]; [exists x, NIL; split; [now left|]; split; [now apply tset_op|now apply Eap]|].
  destruct (opl g0) eqn:Eo; [exists x, NIL; split; [now left|]; split; [now apply tset_op|now apply Eap]|]. exists (nb s f), u. split; [eapply hs_mono; eauto|]. split; [|apply Esym; apply (ci_E _ _ _ C u f Hf)].
  apply (tset_of u f); auto. apply anc_trans with x; [auto|]. eapply hs_anc; eauto.
Qed.
(** Every remaining edge below an active child leads to the external face of its component. *)
Lemma lift_X d u f : act s d -> u <= v -> u < d -> In f (fw a u) -> anc d (nb s f) -> exists e, In e (X s (N + d)) /\ hs s [] e (nb s f).
Proof.
  intros Ad Hu Hd Hf A. destruct (nb_prim u f Hf) as (P1 & P2 & P3). destruct (lift g0 kids St s G d (nb s f) Ad P1 A) as (e & Pe & Be & He). exists e. split; [|auto].
  destruct (ci_keep _ _ _ C u f ltac:(lia) Hf) as [K1 K2]. destruct He as [Q|(d' & A1 & _ & A3 & A4 & A5)].
  - rewrite Q, Be in K1. auto.
  - destruct (B_anc g0 kids St _ _ _ _ _ G (proj1 Ad) Pe Be) as [Ae _]. pose proof (anc_le g0 kids St _ _ Pe Ae). specialize (K2 d' A1 A4 ltac:(lia)). rewrite A3, Be in K2. auto.
Qed.

(** ** The chain of a descent *)
Hypothesis Ac : act s c.
Lemma X_in d x : act s d -> In x (X s (N + d)) -> prim x /\ B s x = N + d /\ anc d x.
Proof.
  intros Ad Hx. destruct (full_of g0 _ _ G Ad) as [_ Fu]. destruct (X_facts g0 _ _ Fu) as (_ & _ & H). destruct (H x Hx) as [H1 H2]. split; [auto|]. split; [auto|].
  apply (B_anc g0 kids St _ _ _ _ _ G (proj1 Ad) H1 H2).
Qed.
Lemma X_nd d : act s d -> NoDup (X s (N + d)) /\ X s (N + d) <> [].
Proof. intros Ad. destruct (full_of g0 _ _ G Ad) as [_ Fu]. destruct (X_facts g0 _ _ Fu) as (H1 & H2 & _). auto. Qed.
Lemma c_root : isroot (N + c).
Proof. unfold GeoP.isroot, GeoP.prim in *. lia. Qed.
Lemma chain_act P Q fr : forall W d1, prim W -> chain a (N + c) W fr P Q -> act s d1 -> anc d1 W -> anc c d1 -> d1 <> c -> In (N + d1) (map snd fr).
Proof.
  induction fr as [|[z R] fr IH]; intros W d1 PW Ch Ad A A1 Ne.
  - destruct Ch as [C1 _]. pose proof (B_near g0 kids St _ _ _ _ _ G Ad PW A). pose proof (anc_le g0 kids St _ _ (proj1 Ad) A1). lia.
  - destruct Ch as (C1 & (l & C2) & (d & D1 & D2 & D3 & D4) & C4). pose proof (B_near g0 kids St _ _ _ _ _ G Ad PW A) as L. destruct (Z.eq_dec d1 d) as [->|Nd]; [left; auto|right].
    rewrite C1, D1 in L. destruct (B_anc g0 kids St _ _ _ d W G (proj1 D2) PW ltac:(congruence)) as [Ad' _].
    assert (A2 : anc d1 d) by (apply (anc_total g0 kids St) with W; auto; lia). destruct (anc_up g0 _ _ A2 Nd) as [N1 A3]. rewrite D3 in A3.
    apply (IH z d1); auto. rewrite <- D3. apply (Hp g0 kids St d (proj1 D2) N1).
Qed.
Lemma jx_anc P Q fr W y : prim W -> chain a (N + c) W fr P Q -> In y (jx s W fr Q) -> prim y /\ anc c y /\ In (B s y) (N + c :: map snd fr).
Proof.
  intros PW Ch Hy. apply jx_in in Hy. destruct Hy as [(R & R1 & R2)|Hy].
  - destruct (chain_in g0 kids St _ _ _ _ _ _ _ _ G eq_refl Pc W PW Ch) as (_ & _ & Fr). apply in_map_iff in R1. destruct R1 as ([z R'] & Q1 & Hi). cbn [snd] in Q1. subst R'.
    destruct (Fr z R Hi) as (d & D1 & D2 & D3 & D4 & D5 & D6). rewrite D1 in R2. destruct (X_in d y D2 R2) as (X1 & X2 & X3). split; [auto|]. split.
    + apply anc_trans with d; [|auto]. apply anc_step; [apply D2|]. now rewrite D3.
    + right. rewrite X2, <- D1. apply in_map_iff. exists (z, R). auto.
  - destruct (chain_bot _ _ _ _ _ _ _ Ch) as [_ Xb]. assert (Hy' : In y (X s (N + c))) by (rewrite Xb; apply in_app_iff; auto). destruct (X_in c y Ac Hy') as (X1 & X2 & X3). split; [auto|]. split; [auto|]. left. auto.
Qed.
Lemma roots_below P Q fr W d : prim W -> chain a (N + c) W fr P Q -> act s d -> p d = W -> forall R, In R (N + c :: map snd fr) -> R < N + d.
Proof.
  intros PW Ch Ad Ed R HR. destruct (chain_lt g0 kids St _ _ _ _ _ _ _ G c_root W Ch) as (L1 & _ & _). pose proof (chain_top _ _ _ _ _ _ _ _ _ G c_root Ch) as Tp.
  pose proof (proj2 (Hp g0 kids St d (proj1 Ad) (proj1 (proj2 Ad)))) as Lt. rewrite Ed in Lt. pose proof c_root as CR.
  assert (BW : B s W <> NIL). { rewrite Tp. destruct fr as [|[z R'] fr]; cbn [map snd hd]; [unfold GeoP.isroot, GeoP.prim, NIL in *; lia|]. specialize (L1 R' (or_introl eq_refl)). unfold GeoP.isroot, GeoP.prim, NIL in *. lia. }
  pose proof (B_le g0 kids St _ _ _ _ G PW BW) as BL.
  destruct HR as [<-|Hi]; [|specialize (L1 R Hi); lia]. rewrite Tp in BL. destruct fr as [|[z R'] fr]; cbn [map snd hd] in *; [lia|]. specialize (L1 R' (or_introl eq_refl)). lia.
Qed.
Lemma beyond P Q fr W d y z : prim W -> chain a (N + c) W fr P Q -> act s d -> p d = W -> In y (jx s W fr Q) -> hs s (N + d :: map snd fr) y z -> rest g0 c d z.
Proof.
  intros PW Ch Ad Ed Hy Hz. destruct (jx_anc P Q fr W y PW Ch Hy) as (Py & Ay & By). pose proof (roots_below P Q fr W d PW Ch Ad Ed _ By) as L.
  pose proof (hs_prim _ _ _ _ _ Py Hz) as Pz. split; [auto|]. split; [apply anc_trans with y; [auto|eapply hs_anc; eauto]|]. intros A.
  assert (Ny : ~ anc d y) by (intros Q0; pose proof (B_near g0 kids St _ _ _ _ _ G Ad Py Q0); lia).
  destruct Hz as [->|(d1 & A1 & A2 & A3 & A4 & _)]; [auto|]. cbn [In] in A2.
  destruct (Z_le_dec d d1) as [Le|Le].
  - assert (Q0 : anc d d1) by (apply (anc_total g0 kids St) with z; auto). destruct (Z.eq_dec d d1) as [->|Ne]; [apply A2; now left|]. destruct (anc_up g0 _ _ Q0 Ne) as [_ Q1]. rewrite A3 in Q1. auto.
  - assert (Q0 : anc d1 d) by (apply (anc_total g0 kids St) with z; auto; lia). destruct (anc_up g0 _ _ Q0 ltac:(lia)) as [_ Q1]. rewrite Ed in Q1.
    apply A2. right. apply (chain_act P Q fr W d1); auto.
    + apply anc_step; [apply A1|]. now rewrite A3.
    + intros ->. rewrite Ec in A3. pose proof (c_lt y Py Ay). lia.
Qed.
Lemma tat_rtx P Q fr W d y : prim W -> chain a (N + c) W fr P Q -> act s d -> p d = W -> In y (jx s W fr Q) -> tat v a (N + d :: map snd fr) y -> rtx g0 E v c d.
Proof.
  intros PW Ch Ad Ed Hy Ty. assert (Op : opl g0 = true -> rtx g0 E v c d).
  { intros Eo. pose proof (beyond P Q fr W d y y PW Ch Ad Ed Hy (or_introl eq_refl)) as R. exists y, NIL. split; [auto|]. split; [now apply tset_op|]. apply Eap; [auto|apply R]. }
  destruct Ty as [|(u & f & Hu & Hf & Hh)]; [auto|]. destruct (opl g0) eqn:Eo; [auto|]. pose proof (beyond P Q fr W d y _ PW Ch Ad Ed Hy Hh) as R. exists (nb s f), u. split; [auto|]. split; [|apply Esym; apply (ci_E _ _ _ C u f Hf)].
  apply (tset_of u f); auto. apply R.
Qed.

(** ** Going down *)
Hypothesis Etree : forall c, prim c -> p c <> NIL -> E c (p c).
Hypothesis NK : ~ K.
Lemma ob_tvt d x w y : act s d -> anc c d -> d <> c -> sub [x; w; y] (X s (N + d)) -> tat v a [] x -> vat v a [] w -> tat v a [] y -> False.
Proof.
  intros Ad A Ne Hs T1 V2 T3. destruct (ci_cyc _ _ _ C d Ad) as (Y & HY & Sy). assert (S3 := sub_trans _ _ _ Hs Sy). destruct (sub3 _ _ _ _ S3) as (Y0 & Y1 & Y2 & Y3 & EY).
  assert (Ai : forall z, In z [x; w; y] -> prim z /\ anc c z). { intros z Hz. destruct (X_in d z Ad (sub_in _ _ _ Hs Hz)) as (Z1 & _ & Z3). split; [auto|]. exact (anc_trans _ _ _ _ A Z3). }
  apply NK. apply (ob_a g0 kids St E Esym Etree Eap s G v c Pv Pc Ec d Ad A Ne Y Y0 x Y1 w Y2 y Y3 HY EY).
  - apply (tat_ttx []); auto. apply Ai. cbn [In]; auto.
  - apply (vat_vtx []); auto.
  - apply (tat_ttx []); auto. apply Ai. cbn [In]; auto.
Qed.
Lemma ob_vtv d x w y : act s d -> anc c d -> d <> c -> sub [x; w; y] (X s (N + d)) -> rtx g0 E v c d -> vat v a [] x -> tat v a [] w -> vat v a [] y -> False.
Proof.
  intros Ad A Ne Hs R T1 V2 T3. destruct (ci_cyc _ _ _ C d Ad) as (Y & HY & Sy). assert (S3 := sub_trans _ _ _ Hs Sy). destruct (sub3 _ _ _ _ S3) as (Y0 & Y1 & Y2 & Y3 & EY).
  assert (Ai : forall z, In z [x; w; y] -> prim z /\ anc c z). { intros z Hz. destruct (X_in d z Ad (sub_in _ _ _ Hs Hz)) as (Z1 & _ & Z3). split; [auto|]. exact (anc_trans _ _ _ _ A Z3). }
  apply NK. apply (ob_b g0 kids St E Esym Etree Eap s G v c Pv Pc Ec d Ad A Ne Y Y0 x Y1 w Y2 y Y3 HY EY R).
  - apply (vat_vtx []); auto.
  - apply (tat_ttx []); auto. apply Ai. cbn [In]; auto.
  - apply (vat_vtx []); auto.
Qed.
Lemma ob_two d x w : act s d -> anc c d -> d <> c -> sub [x; w] (X s (N + d)) -> rtx g0 E v c d -> vat v a [] x -> tat v a [] x -> vat v a [] w -> tat v a [] w -> False.
Proof.
  intros Ad A Ne Hs R V1 T1 V2 T2. destruct (ci_cyc _ _ _ C d Ad) as (Y & HY & Sy). assert (S3 := sub_trans _ _ _ Hs Sy). destruct (sub2 _ _ _ S3) as (Y0 & Y1 & Y2 & EY).
  assert (Ai : forall z, In z [x; w] -> prim z /\ anc c z). { intros z Hz. destruct (X_in d z Ad (sub_in _ _ _ Hs Hz)) as (Z1 & _ & Z3). split; [auto|]. exact (anc_trans _ _ _ _ A Z3). }
  apply NK. apply (ob_c g0 kids St E Esym Etree Eap s G v c Pv Pc Ec d Ad A Ne Y Y0 x Y1 w Y2 HY EY R).
  - apply (vat_vtx []); auto.
  - apply (tat_ttx []); auto. apply Ai. cbn [In]; auto.
  - apply (vat_vtx []); auto.
  - apply (tat_ttx []); auto. apply Ai. cbn [In]; auto.
Qed.
Lemma uact_split d x : uact a d x -> vat v a [] x \/ tat v a [] x.
Proof.
  intros [Eo|(u & f & Hu & Hf & Hh)]; [right; now left|]. destruct (Z.lt_trichotomy u v) as [L|[->|L]].
  - right. right. exists u, f. auto.
  - left. exists f. auto.
  - rewrite (ci_done _ _ _ C u L) in Hf. destruct Hf.
Qed.

(** The child d of W on whose component the walk goes down. *)
Section Descent.
Variables (W d : Z) (l : list Z) (fr : list (Z * Z)) (P Q : list Z).
Hypotheses (PW : prim W) (Ch : chain a (N + c) W fr P Q) (Ep : prl a W = d :: l).
Lemma d_facts : p d = W /\ act s d /\ anc c d /\ d <> c /\ v < W /\ anc c W /\ exists f, In f (fw a v) /\ anc d (nb s f).
Proof.
  destruct (d_prl _ _ _ _ _ D W d) as (P1 & P2 & P3 & P4); [rewrite Ep; now left|]. destruct (chain_in g0 kids St _ _ _ _ _ _ _ _ G eq_refl Pc W PW Ch) as (A1 & A2 & _).
  assert (A : anc c d) by (apply anc_step; [apply P3|now rewrite P1]). pose proof (c_lt W PW A1) as LW. split; [auto|]. split; [auto|]. split; [auto|]. split; [intros ->; lia|]. auto.
Qed.
(** Both ends of its external face are not pertinent: blocked. *)
Lemma blocked : ~ pert a (hd NIL (X s (N + d))) -> ~ pert a (last (X s (N + d)) NIL) -> False.
Proof.
  intros N1 N2. destruct d_facts as (Ed & Ad & A & Ne & LW & AW & f & Hf & Af). destruct (X_nd d Ad) as [Nd Xn].
  assert (Pd : v < d) by (pose proof (proj2 (Hp g0 kids St d (proj1 Ad) (proj1 (proj2 Ad)))); lia).
  destruct (lift_X d v f Ad ltac:(lia) Pd Hf Af) as (e & He & Hh). assert (Ve : vat v a [] e) by (exists f; auto).
  assert (Px : forall x, In x (X s (N + d)) -> prim x /\ v < x). { intros x Hx. destruct (X_in d x Ad Hx) as (X1 & _ & X3). split; [auto|]. apply c_lt; auto. exact (anc_trans _ _ _ _ A X3). }
  destruct (Px _ (hd_in _ NIL Xn)) as [Ph Lh]. destruct (Px _ (last_in _ NIL Xn)) as [Pl Ll].
  rewrite (pert_vat _ Ph Lh) in N1. rewrite (pert_vat _ Pl Ll) in N2.
  assert (E1 : e <> hd NIL (X s (N + d))) by (intros ->; auto). assert (E2 : e <> last (X s (N + d)) NIL) by (intros ->; auto).
  assert (S3 : sub [hd NIL (X s (N + d)); e; last (X s (N + d)) NIL] (X s (N + d))).
  { assert (S2 := sub_hd [] e _ (sub1 _ _ He) E1). apply (sub_last [hd NIL (X s (N + d))] e); auto. }
  destruct (ci_ends _ _ _ C d Ad Ne) as [L2|[L2|[L2 L3]]].
  - apply sub_len in S3. cbn [length] in S3. lia.
  - apply (L2 v f); auto. lia.
  - destruct (uact_split _ _ L2) as [|T2]; [contradiction|]. destruct (uact_split _ _ L3) as [|T3]; [contradiction|]. exact (ob_tvt d _ _ _ Ad A Ne S3 T2 Ve T3).
Qed.
Hypothesis EP : pe a W = NIL.
Hypothesis Fi : fine v a (map snd fr) (jx s W fr Q).
Variables (W' : Z) (D' : list Z).
Hypotheses (EX : X s (N + d) = W' :: D') (PeW : pert a W').
Hypothesis Cho : ~ fpt v a W' \/ fpt v a (last (X s (N + d)) NIL) \/ ~ pert a (last (X s (N + d)) NIL).
Lemma descend : fine v a (N + d :: map snd fr) (X s (N + d) ++ jx s W fr Q).
Proof.
  intros x w y Hs Tx Vw Ty. destruct d_facts as (Ed & Ad & A & Ne & LW & AW & fd & Hfd & Afd). destruct (X_nd d Ad) as [Nd Xn].
  assert (Px : forall x, In x (X s (N + d)) -> prim x /\ v < x). { intros z Hz. destruct (X_in d z Ad Hz) as (X1 & _ & X3). split; [auto|]. apply c_lt; auto. exact (anc_trans _ _ _ _ A X3). }
  assert (Lpd : v < p d) by lia.
  apply sub_two in Hs. destruct Hs as (k1 & k2 & Ek & S1 & S2).
  destruct (jx_hd _ _ _ _ _ _ _ Ch) as (t & Ej & _ & _).
  assert (Tin : forall z, In z (X s (N + d)) -> tat v a [] z -> tat v a (map snd fr) W).
  { intros z Hz [Eo|(u & f & Hu & Hf & Hh)]; [now left|]. right. destruct (X_in d z Ad Hz) as (Z1 & Z2 & Z3). exists u, f. split; [auto|]. split; [auto|]. right. exists d. split; [auto|]. split; [|split; [auto|split]].
    - intros Q0. pose proof (roots_below P Q fr W d PW Ch Ad Ed (N + d) (or_intror Q0)). lia.
    - apply anc_trans with z; [auto|]. eapply hs_anc; eauto.
    - apply (nb_prim u f Hf). }
  destruct k1 as [|x1 k1]; [cbn [app] in Ek|injection Ek as <- Ek; destruct k1 as [|x1 k1]; [cbn [app] in Ek|injection Ek as <- Ek; destruct k1 as [|x1 k1]; [cbn [app] in Ek|injection Ek as <- Ek]]].
  - (* all beyond *)
    subst k2. apply (Fi x w y S2); [eapply tat_incl; [|exact Tx]|eapply vat_incl; [|exact Vw]|eapply tat_incl; [|exact Ty]]; intros R HR; now right.
  - (* x in the component, w and y beyond *)
    subst k2. assert (Hx : In x (X s (N + d))) by (apply (sub_in _ _ _ S1); now left). pose proof (tat_nil _ _ _ _ Tx) as Tx0. pose proof (Tin x Hx Tx0) as TW.
    assert (Hw : In w (jx s W fr Q)) by (apply (sub_in _ _ _ S2); now left). assert (Hy : In y (jx s W fr Q)) by (apply (sub_in _ _ _ S2); right; now left).
    destruct (Z.eq_dec w W) as [->|Nw].
    + destruct Vw as (f & Hf & Hh). destruct (ci_comp _ _ _ C f Hf) as [C1 C2]. destruct Hh as [Q0|(d2 & B1 & B2 & B3 & B4 & B5)].
      { rewrite Q0, EP in C1. apply (ci_E _ _ _ C v f Hf). auto. }
      cbn [In] in B2. assert (Nd2 : d <> d2) by (intros ->; apply B2; now left). specialize (C2 d2 B1 B4 ltac:(lia)). rewrite B3, Ep in C2. destruct C2 as [Q0|I2]; [congruence|].
      assert (Bt : forall d', act s d' -> p d' = W -> (opl g0 = true \/ exists u ft, u < v /\ In ft (fw a u) /\ anc d' (nb s ft)) -> exists z u, below g0 d' z /\ tset g0 v u /\ E z u).
      { intros d' Q1 Q2 Q3. assert (Op : opl g0 = true -> exists z u, below g0 d' z /\ tset g0 v u /\ E z u).
        { intros Eo. exists d', NIL. split; [split; [apply Q1|constructor]|]. split; [now apply tset_op|]. apply Eap; [auto|apply Q1]. }
        destruct Q3 as [|(u & ft & Q5 & Q6 & Q7)]; [auto|]. destruct (opl g0) eqn:Eo; [auto|].
        exists (nb s ft), u. split; [split; [apply (nb_prim u ft Q6)|auto]|]. split; [|apply Esym; apply (ci_E _ _ _ C u ft Q6)]. apply (tset_of u ft); auto.
        apply anc_trans with d'; [|auto]. apply anc_step; [apply Q1|]. now rewrite Q2. }
      assert (Bo : forall d' fv, act s d' -> p d' = W -> In fv (fw a v) -> anc d' (nb s fv) -> (opl g0 = true \/ exists u ft, u < v /\ In ft (fw a u) /\ anc d' (nb s ft)) -> both g0 E v d').
      { intros d' fv Q1 Q2 Q3 Q4 Q5. split; [|auto]. exists (nb s fv). split; [split; [apply (nb_prim v fv Q3)|auto]|]. apply Esym. apply (ci_E _ _ _ C v fv Q3). }
      assert (T12 : opl g0 = true \/ (exists u ft, u < v /\ In ft (fw a u) /\ anc d (nb s ft)) /\ (exists u ft, u < v /\ In ft (fw a u) /\ anc d2 (nb s ft))).
      { pose proof (ci_ord _ _ _ C W) as Od. rewrite Ep in Od. apply StronglySorted_inv in Od. destruct Od as [_ Od]. rewrite Forall_forall in Od. specialize (Od d2 I2).
        destruct Tx0 as [|(u & f1 & Hu & Hf1 & Hh1)]; [now left|right]. destruct (X_in d x Ad Hx) as (X1 & X2 & X3).
        assert (Ad1 : anc d (nb s f1)) by (apply anc_trans with x; [auto|eapply hs_anc; eauto]).
        assert (Ld : viLow (gVI g0) d < v) by (pose proof (fo_lp _ _ F u f1 d Hf1 (proj1 Ad) Ad1); lia). specialize (Od Ld).
        assert (Ld2 : v < d2) by (pose proof (proj2 (Hp g0 kids St d2 (proj1 B1) (proj1 (proj2 B1)))); lia).
        destruct (ci_low _ _ _ C d2 (proj1 B1) Od ltac:(lia)) as (f2 & F21 & F22). split; eauto. }
      assert (B1' : both g0 E v d) by (apply (Bo d fd); auto; destruct T12 as [|[]]; auto). assert (B2' : both g0 E v d2) by (apply (Bo d2 f); auto; destruct T12 as [|[]]; auto).
      (* the component of W *)
      destruct (sub_split [] W [y] _ S2) as (m1 & m2 & Em & _ & Sy).
      assert (Iy : In y t). { rewrite Ej in S2. inversion S2 as [| ? ? ? H1|? ? ? H1]; subst; [apply (sub_in _ _ _ H1); now left|apply (sub_in _ _ _ H1); right; now left]. }
      clear m1 m2 Em Sy. apply NK. destruct fr as [|[z R] fr'] eqn:Efr.
      * destruct Ch as [H1 H2]. cbn [jx] in Ej. injection Ej as Ej. destruct (ci_cyc _ _ _ C c Ac) as (Y & HY & Sy). rewrite H2 in Sy. apply sub_split in Sy. destruct Sy as (Y1 & Y2 & EY & _ & Sy).
        apply (ob_e g0 kids St E Esym Etree Eap s G v c Pv Pc Ec W d d2 c Y Y1 Y2); auto; [constructor|]. left. exists y. split; [apply (sub_in _ _ _ Sy); now rewrite Ej|].
        apply (tat_ttx [N + d]); auto. destruct (jx_anc P Q [] W y PW (conj H1 H2) Hy) as (? & ? & _). auto.
      * pose proof Ch as Ch'. destruct Ch as (H1 & (l0 & H2) & (b & D1 & D2 & D3 & D4) & H4).
        destruct (ci_cyc _ _ _ C b D2) as (Y & HY & Sy). rewrite <- D1, H2 in Sy. apply (sub_split [] W l0) in Sy. destruct Sy as (Y1 & Y2 & EY & _ & Sy).
        assert (Pz : prim z) by (rewrite <- D3; apply (Hp g0 kids St b (proj1 D2) (proj1 (proj2 D2)))).
        assert (Az : anc c z) by (apply (chain_in g0 kids St _ _ _ _ _ _ _ _ G eq_refl Pc z Pz H4)).
        assert (Ab : anc c b) by (apply anc_step; [apply D2|now rewrite D3]).
        assert (Nb : b <> c) by (intros ->; pose proof (c_lt z Pz Az); lia).
        apply (ob_e g0 kids St E Esym Etree Eap s G v c Pv Pc Ec W d d2 b Y Y1 Y2); auto; [congruence|].
        cbn [jx] in Ej. rewrite H2 in Ej. cbn [app] in Ej. injection Ej as Ej. rewrite <- Ej in Iy. apply in_app_iff in Iy. destruct Iy as [Iy|Iy].
        -- left. exists y. split; [exact (sub_in _ _ _ Sy Iy)|]. apply (tat_ttx (N + d :: map snd ((z, R) :: fr'))); auto. destruct (jx_anc P Q _ W y PW Ch' Hy) as (? & ? & _). auto.
        -- right. split; [auto|]. apply (tat_rtx P Q fr' z b y); auto. eapply tat_incl; [|exact Ty]. intros R' HR'. right. cbn [map snd]. rewrite D1. exact HR'.
    + assert (S3 : sub [W; w; y] (jx s W fr Q)). { rewrite Ej in *. inversion S2 as [| ? ? ? H1|? ? ? H1]; subst; [congruence|]. now constructor. }
      apply (Fi W w y S3 TW); [eapply vat_incl; [|exact Vw]|eapply tat_incl; [|exact Ty]]; intros R HR; now right.
  - (* x and w in the component, y beyond *)
    subst k2. assert (Hy : In y (jx s W fr Q)) by (apply (sub_in _ _ _ S2); now left). pose proof (tat_rtx P Q fr W d y PW Ch Ad Ed Hy Ty) as R.
    apply tat_nil in Tx. apply vat_nil in Vw.
    assert (Hx : In x (X s (N + d))) by (apply (sub_in _ _ _ S1); now left). assert (Hw : In w (X s (N + d))) by (apply (sub_in _ _ _ S1); right; now left).
    assert (HW' : In W' (X s (N + d))) by (rewrite EX; now left). destruct (Px W' HW') as [PW' LW']. pose proof (proj1 (pert_vat W' PW' LW') PeW) as VW'.
    assert (Hhd : hd NIL (X s (N + d)) = W') by (rewrite EX; reflexivity). set (xk := last (X s (N + d)) NIL) in *.
    assert (Hk : In xk (X s (N + d))) by (now apply last_in). destruct (Px xk Hk) as [Pk Lk].
    rewrite (fpt_tat W' PW' LW'), (fpt_tat xk Pk Lk), (pert_vat xk Pk Lk) in Cho.
    pose proof (sub_nd _ _ _ Nd S1) as Nxw.
    apply (em_False (tat v a [] W')). intros [TW'|TW'].
    + assert (Cho' : vat v a [] xk -> tat v a [] xk) by (intros V0; destruct Cho as [|[|]]; [contradiction|auto|contradiction]).
      destruct (Z.eq_dec w xk) as [Ew|Nw].
      * assert (S0 : sub [W'; xk] (X s (N + d))).
        { rewrite <- Ew. rewrite <- Hhd. apply (sub_hd []); [apply sub1; auto|]. rewrite Hhd. intros Q0. rewrite Q0, EX in S1. inversion S1 as [| ? ? ? H1|? ? ? H1]; [congruence|].
          assert (In W' D') by (apply (sub_in _ _ _ H1); right; now left). rewrite EX in Nd. apply NoDup_cons_iff in Nd. tauto. }
        rewrite Ew in Vw. exact (ob_two d W' xk Ad A Ne S0 R VW' TW' Vw (Cho' Vw)).
      * assert (S3 : sub [x; w; xk] (X s (N + d))) by (apply (sub_last [x] w); auto).
        assert (Tk : vat v a [] xk \/ tat v a [] xk).
        { destruct (ci_ends _ _ _ C d Ad Ne) as [L2|[L2|[L2 L3]]].
          - apply sub_len in S3. cbn [length] in S3. lia.
          - destruct Tx as [Eo|(u & f & Hu & Hf & Hh)]; [right; now left|]. exfalso. apply (L2 u f); [lia|auto|]. apply anc_trans with x; [apply (X_in d x Ad Hx)|eapply hs_anc; eauto].
          - apply (uact_split d xk L3). }
        apply (ob_tvt d x w xk Ad A Ne S3 Tx Vw). destruct Tk; auto.
    + assert (Nx : x <> hd NIL (X s (N + d))) by (rewrite Hhd; intros ->; contradiction). pose proof (sub_hd _ _ _ S1 Nx) as S3. rewrite Hhd in S3. exact (ob_vtv d W' x w Ad A Ne S3 R VW' Tx Vw).
  - (* all in the component *)
    destruct k1; [|discriminate]. apply (ob_tvt d x w y Ad A Ne S1); [eapply tat_nil; eauto|eapply vat_nil; eauto|eapply tat_nil; eauto].
Qed.
End Descent.
End Walk.
End Comp.
