(** * EmbTree: facts about the DFS tree and the components of a partial embedding. *)
From Coq Require Import ZifyBool Permutation Sorted.
From Verif Require Import Base BaseP GraphRec GraphM GraphSpec GSimp LinkP GraphP2 ListM ListSpec ListP DFSM DFSSpec DFSP TestP TestM EmbM EmbSpec EmbP FaceP GeoP GeoP2 EmbInv EmbStep.

(** What the initialisation establishes about the tree and nothing changes afterwards. *)
Record static (g0 : graph) (kids : Z -> list Z) : Prop := {
  st_p : forall z, prim (gN g0) z -> viParent (gVI g0) z <> NIL -> prim (gN g0) (viParent (gVI g0) z) /\ viParent (gVI g0) z < z;
  st_kids : kids_ok g0 kids;
  st_kid : forall u c, In c (kids u) <-> prim (gN g0) c /\ prim (gN g0) u /\ viParent (gVI g0) c = u;
  st_sorted : forall u, StronglySorted Z.lt (kids u);
  st_sub : forall c c' w, prim (gN g0) c -> prim (gN g0) c' -> viParent (gVI g0) c = viParent (gVI g0) c' -> viParent (gVI g0) c <> NIL ->
     c < c' -> prim (gN g0) w -> ancestor (viParent (gVI g0)) c w -> w < c';
  st_N : 0 <= gN g0;
  st_cap : 2 * gCap g0 <= gstackCap g0 }.

(** Is the embedder asked for an outerplanar embedding? *)
Definition opl (g0 : graph) : bool := negb (Z.land (gembed g0) EMBEDFLAGS_OUTERPLANAR =? 0).

Section Tree.
Variables (g0 : graph) (kids : Z -> list Z).
Hypothesis St : static g0 kids.
Local Notation N := (gN g0).
Local Notation p := (viParent (gVI g0)).
Local Notation prim := (prim (gN g0)).
Local Notation isroot := (isroot (gN g0)).
Local Notation geo := (geo (gN g0) (viParent (gVI g0))).
Local Notation anc := (ancestor (viParent (gVI g0))).

Lemma Hp z : prim z -> p z <> NIL -> prim (p z) /\ p z < z.
Proof. apply (st_p _ _ St). Qed.
Lemma prim_ne z : prim z -> z <> NIL.
Proof. unfold GeoP.prim, NIL. lia. Qed.
Lemma anc_prim a z : prim z -> anc a z -> prim a.
Proof. intros Hz H. revert Hz. induction H; auto. intros Hz. apply IHancestor. now apply Hp. Qed.
Lemma anc_le a z : prim z -> anc a z -> a <= z.
Proof. intros Hz H. revert Hz. induction H; [lia|]. intros Hz. destruct (Hp v Hz H) as [A C]. specialize (IHancestor A). lia. Qed.
Lemma anc_eq a z : prim z -> anc a z -> z <= a -> a = z.
Proof. intros Hz H L. pose proof (anc_le _ _ Hz H). lia. Qed.
(** An ancestor other than the vertex itself is an ancestor of the parent. *)
Lemma anc_up a z : anc a z -> a <> z -> p z <> NIL /\ anc a (p z).
Proof. intros H Ne. inversion H; subst; [congruence|auto]. Qed.
(** Two ancestors of one vertex are comparable. *)
Lemma anc_total a b z : prim z -> anc a z -> anc b z -> a <= b -> anc a b.
Proof.
  intros Hz Ha Hb. revert Ha Hz. induction Hb as [|z Hn Hb IH]; intros Ha Hz L; [exact Ha|].
  destruct (Z.eq_dec a z) as [->|Ne].
  - destruct (Hp z Hz Hn) as [A C]. pose proof (anc_le _ _ A Hb). lia.
  - destruct (anc_up _ _ Ha Ne) as [_ Ha']. apply IH; auto. now apply Hp.
Qed.
(** w is a proper descendant of u through the child c. *)
Definition via (u c w : Z) : Prop := prim c /\ p c = u /\ prim u /\ prim w /\ anc c w.
Lemma via_lt u c w : via u c w -> u < c <= w.
Proof.
  intros (H1 & H2 & H3 & H4 & H5). pose proof (anc_le _ _ H4 H5). destruct (Hp c H1) as [_ L]; [rewrite H2; now apply prim_ne|]. lia.
Qed.
Lemma via_of u w : prim w -> prim u -> anc u w -> u <> w -> exists c, via u c w.
Proof.
  intros Hw Hu H Ne. revert Hw Ne. induction H as [|w Hn H IH]; intros Hw Ne; [congruence|].
  destruct (Hp w Hw Hn) as [Hpw _]. destruct (Z.eq_dec u (p w)) as [E|Ne'].
  - exists w. repeat split; auto; try apply Hw; try apply Hu. constructor.
  - destruct (IH Hpw Ne') as (c & C1 & C2 & C3 & C4 & C5). exists c. repeat split; auto; try apply C1; try apply Hu; try apply Hw. now apply anc_step.
Qed.
Lemma via_anc u c w : via u c w -> anc u w.
Proof. intros (H1 & H2 & H3 & H4 & H5). eapply anc_trans; [|exact H5]. apply anc_step; rewrite H2; [now apply prim_ne|constructor]. Qed.
Lemma via_unique u c c' w : via u c w -> via u c' w -> c = c'.
Proof.
  intros V V'. pose proof V as (H1 & H2 & H3 & H4 & H5). pose proof V' as (K1 & K2 & K3 & K4 & K5).
  assert (Nu : p c <> NIL) by (rewrite H2; now apply prim_ne).
  destruct (Z.lt_trichotomy c c') as [L|[E|L]]; [|auto|].
  - pose proof (st_sub _ _ St c c' w H1 K1 ltac:(congruence) Nu L H4 H5). pose proof (via_lt _ _ _ V'). lia.
  - pose proof (st_sub _ _ St c' c w K1 H1 ltac:(congruence) ltac:(congruence) L H4 K5). pose proof (via_lt _ _ _ V). lia.
Qed.

(** ** Components *)
Definition act (s : gv) (c : Z) : Prop := prim c /\ p c <> NIL /\ adj s (N + c) <> [].
Lemma act_dec s c : {act s c} + {~ act s c}.
Proof.
  unfold act, GeoP.prim. destruct (Z_le_dec 1 c), (Z_le_dec c N); try (right; lia).
  destruct (Z.eq_dec (p c) NIL); [right; tauto|]. destruct (adj s (N + c)) as [|e9 l9]; [right; tauto|].
  left. split; [lia|]. split; [auto|discriminate].
Qed.
Lemma B_near C xs s c z : geo C xs s -> act s c -> prim z -> anc c z -> N + c <= B s z.
Proof.
  intros G (Hc & Pc & Ac) Hz H. pose proof (g_base _ _ _ _ _ G) as G0. revert Hz. induction H as [|z Hn H IH]; intros Hz.
  - rewrite (g_B1 _ _ _ G0 c Hc Pc Ac). lia.
  - destruct (adj s (N + z)) as [|e l] eqn:E.
    + rewrite (proj1 (g_B2 _ _ _ G0 z Hz Hn E)). apply IH. now apply Hp.
    + rewrite (g_B1 _ _ _ G0 z Hz Hn) by (rewrite E; discriminate). pose proof (anc_le _ _ (proj1 (Hp z Hz Hn)) H). destruct (Hp z Hz Hn). lia.
Qed.
Lemma B_act C xs s z : geo C xs s -> prim z -> p z <> NIL -> exists c, B s z = N + c /\ act s c /\ anc c z.
Proof.
  intros G Hz Hn. destruct (B_spec N p Hp C xs s z G Hz Hn) as (c & C1 & C2 & C3 & C4 & C5). exists c. split; [auto|]. split; [|auto]. split; auto.
Qed.
(** The component of a root whose child has only active children is one edge. *)
Lemma lone C xs s c : geo C xs s -> act s c -> (forall y, prim y -> p y = c -> act s y) -> forall z, prim z -> B s z = N + c -> z = c.
Proof.
  intros G Ac Hy z Hz Bz. assert (Pz : p z <> NIL).
  { intros E. destruct (g_B0 _ _ _ (g_base _ _ _ _ _ G) z Hz E) as [Q _]. destruct Ac as [Q1 _]. unfold GeoP.prim, NIL in *. lia. }
  destruct (B_act _ _ _ _ G Hz Pz) as (c' & C1 & C2 & C3). assert (c' = c) as -> by lia.
  destruct (Z.eq_dec z c) as [|Ne]; [auto|exfalso]. destruct (via_of c z Hz (proj1 Ac) C3 ltac:(congruence)) as (y & V).
  pose proof (B_near _ _ _ y z G (Hy y (proj1 V) (proj1 (proj2 V))) Hz ltac:(apply V)) as L. pose proof (via_lt _ _ _ V). lia.
Qed.
Lemma lone_X s c : geo NIL [] s -> act s c -> (forall y, prim y -> p y = c -> act s y) -> X s (N + c) = [c].
Proof.
  intros G Ac Hy. pose proof (lone _ _ _ _ G Ac Hy) as L. pose proof Ac as (A1 & A2 & A3).
  assert (HR : isroot (N + c)) by (unfold GeoP.isroot, GeoP.prim in *; lia).
  pose proof (g_full _ _ _ _ _ G (N + c) HR A3 ltac:(unfold NIL, GeoP.prim in *; lia)) as F. destruct (f_half _ _ _ F) as (pre & segs & FS & Hh).
  pose proof (h_ne _ _ _ _ _ _ _ Hh) as Ne. pose proof (h_nodup _ _ _ _ _ _ _ Hh) as Nd. pose proof (h_in _ _ _ _ _ _ _ Hh) as Hin.
  assert (All : forall x, In x (X s (N + c)) -> x = c) by (intros x Hx; destruct (Hin x Hx); auto).
  destruct (X s (N + c)) as [|x [|y l]]; [congruence| |].
  - now rewrite (All x (or_introl eq_refl)).
  - exfalso. apply NoDup_cons_iff in Nd. apply (proj1 Nd). left. rewrite (All x (or_introl eq_refl)). apply All. right. now left.
Qed.
Lemma full_of s c : geo NIL [] s -> act s c -> isroot (N + c) /\ full N s (N + c).
Proof.
  intros G (A1 & A2 & A3). assert (HR : isroot (N + c)) by (unfold GeoP.isroot, GeoP.prim in *; lia). split; [auto|].
  apply (g_full _ _ _ _ _ G (N + c) HR A3). unfold NIL, GeoP.prim in *. lia.
Qed.
Lemma X_facts s R : full N s R -> X s R <> [] /\ NoDup (X s R) /\ (forall x, In x (X s R) -> prim x /\ B s x = R).
Proof.
  intros F. destruct (f_half _ _ _ F) as (pre & segs & FS & Hh). split; [apply (h_ne _ _ _ _ _ _ _ Hh)|]. split; [apply (h_nodup _ _ _ _ _ _ _ Hh)|apply (h_in _ _ _ _ _ _ _ Hh)].
Qed.
(** The external links around the list. *)
Lemma X_links s R P x Q : full N s R -> X s R = P ++ x :: Q -> ep s x = last P R /\ en s x = hd R Q.
Proof.
  intros F E. destruct (f_half _ _ _ F) as (pre & segs & FS & Hh). pose proof (h_linked _ _ _ _ _ _ _ Hh) as L. rewrite E in L.
  assert (Ep : ep s (hd NIL (P ++ x :: Q)) = R) by (rewrite <- E; apply (f_ep _ _ _ F)). rewrite Ep in L. apply linked_mid in L. exact L.
Qed.
Lemma X_root s R : full N s R -> en s R = hd NIL (X s R) /\ ep s R = last (X s R) NIL.
Proof. intros F. split; [apply (f_en _ _ _ F)|]. destruct (f_half _ _ _ F) as (pre & segs & FS & Hh). apply (h_last _ _ _ _ _ _ _ Hh). Qed.
End Tree.
