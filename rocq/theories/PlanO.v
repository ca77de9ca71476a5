(** * PlanO: outerplanar graphs. *)
From Coq Require Import ZifyBool Permutation.
From Verif Require Import Base BaseP GraphRec GraphM GraphSpec LinkP GraphP GraphP2 GraphP3 DFSSpec DFSP4 TestSpec TestP TestP3 EmbedSpec OrbitP FaceP EmbEuler PlanSpec OutSpec PlanDec PlanP PlanE.

(** ** An outerplanar graph has neither obstruction *)
Theorem outer_full g adj B : rep g adj -> primary_edges g adj -> (forall u e, In e (adj u) -> enbr g e <> u) -> (forall v, Permutation (B v) (adj v)) -> euler g B ->
  (forall r, primary g r -> exists a, forall v, connected g B r v -> B v <> [] -> exists b, same_face g B a b /\ In b (B v)) ->
  full_out (enbr g) B (map Z.of_nat (seq 1 (Z.to_nat (gN g)))).
Proof.
  intros R P NL Bp Eu Ou es O Cv. set (vs := map Z.of_nat (seq 1 (Z.to_nat (gN g)))).
  destruct (euler_full g adj B R P Bp Eu es O Cv) as (FS & S & Df). exists FS. split; [exact S|]. split; [exact Df|].
  pose proof (rt_all g adj B R Bp es Cv) as Ra. fold vs in S.
  assert (Arc : forall d, In d (concat FS) <-> is_arc B d) by (intros d; rewrite (fy_arcs _ _ _ _ _ S d); apply (dart_arc g adj B R Bp es Cv)).
  intros x Hx Nx. apply in_vs in Hx. rewrite Ra in Nx. destruct (Ou x Hx) as [a Ha].
  assert (Bt : forall v e, In e (B v) -> enbr g (twin e) = v /\ In (twin e) (B (enbr g e))) by (intros v e; apply (B_twin g adj B R Bp)).
  (* the face of [a], and of every arc reached from it *)
  destruct (Ha x (conn_refl _ _ _) Nx) as (b0 & Sb0 & Ib0).
  assert (Ab0 : In b0 (concat FS)) by (apply Arc; exists x; exact Ib0). apply in_concat in Ab0. destruct Ab0 as (F & IF & Hb0).
  assert (NF : F <> []) by (intros Q; rewrite Q in Hb0; destruct Hb0). destruct (fy_closed _ _ _ _ _ S F IF NF) as [_ Ch].
  assert (Cl : forall d, In d F -> In (face_step g B d) F).
  { intros d Hd. assert (Cs : closedk (enbr g) B (kept es) F).
    { clear - S IF NF Ch. split; [intros d Hd; apply (fy_arcs _ _ _ _ _ S), in_concat; eauto|]. intros d Hd. change (phk (enbr g) B (kept es) d) with (phi (enbr g) B es d).
      apply in_split in Hd as (l1 & l2 & ->). apply fchain_app in Ch. destruct Ch as [_ C]. cbn [hd fchain] in C. destruct C as [-> _]. destruct l2 as [|y l2]; cbn [hd]; [|apply in_app_iff; right; right; now left].
      destruct l1; now left. }
    destruct Cs as [_ Cs]. specialize (Cs d Hd). change (phk (enbr g) B (kept es) d) with (phi (enbr g) B es d) in Cs. now rewrite (phi_face g adj B R Bp es Cv) in Cs. }
  assert (Cli : forall k d, In d F -> In (Nat.iter k (face_step g B) d) F) by (induction k; intros d Hd; [exact Hd|rewrite iter_S; auto]).
  set (arcs := concat (map B vs)).
  assert (Ia : forall d, In d arcs <-> is_arc B d) by (intros d; apply (in_arcs g adj B P Bp)).
  exists F. split; [exact IF|]. intros y Hy Ny Ey. apply in_vs in Hy. rewrite Ra in Ny.
  assert (Cxy : connected g B x y).
  { apply (conn_trans g B x (crep (enbr g) es x)); [apply (conn_sym g adj B R Bp), (rep_conn g adj B R Bp); exact O|]. rewrite <- Ey. now apply (rep_conn g adj B R Bp). }
  destruct (Ha y Cxy Ny) as (b & (k & Ek) & Ib). destruct Sb0 as (k0 & Ek0). exists b. split; [|unfold src; apply (Bt y b Ib)].
  destruct (Nat.le_ge_cases k0 k) as [L|L].
  - replace k with ((k - k0) + k0)%nat in Ek by lia. rewrite iter_add, Ek0 in Ek. rewrite <- Ek. now apply Cli.
  - replace k0 with ((k0 - k) + k)%nat in Ek0 by lia. rewrite iter_add, Ek in Ek0.
    destruct (orbit_sym (face_step g B) arcs) with (a := b) (b := b0) (k := (k0 - k)%nat) as [j Ej]; auto.
    + intros d. rewrite !Ia. apply (step_arc g adj B R Bp).
    + intros d d'. rewrite !Ia. apply (step_inj g adj B R Bp).
    + apply Ia. now exists y.
    + rewrite <- Ej. now apply Cli.
Qed.
Theorem outerplanar_no_minor g adj : rep g adj -> primary_edges g adj -> (forall u e, In e (adj u) -> enbr g e <> u) -> outerplanar_graph g adj ->
  ~ outer_obstruction (primary g) (adjacent g adj).
Proof.
  intros R P NL (B & Bp & Eu & Ou) K. pose proof (outer_full g adj B R P NL Bp Eu Ou) as FP. revert FP.
  set (vs := map Z.of_nat (seq 1 (Z.to_nat (gN g)))).
  assert (Ed : forall u w, adjacent g adj u w -> edge (enbr g) B u w) by (intros u w (e & He & E); exists e; split; [now apply (in_B adj B Bp)|auto]).
  assert (Cn : forall L, conn_set (adjacent g adj) L -> (forall x, In x L -> primary g x) -> cset (enbr g) B vs L).
  { intros L [N C] V. split; [auto|]. split; [intros x Hx; apply in_vs; auto|]. intros x y Hx Hy. eapply path_joined; eauto. }
  assert (Tc : forall A A', touching (adjacent g adj) A A' -> touch (enbr g) B A A') by (intros A A' (x & y & H1 & H2 & H3); exists x, y; auto).
  destruct K as [(S & C & D & T)|(S & C & D & T)].
  - apply (no_K4 (enbr g) B vs) with (BL := S); auto; try (intros; eapply B_nodup; eauto; fail); try (intros; eapply B_vs; eauto; fail); try (intros; eapply B_twin; eauto; fail); try (intros; eapply B_loop; eauto; fail).
    + apply vs_nodup.
    + intros i Hi. destruct (C i Hi). auto.
  - apply (no_K23 (enbr g) B vs) with (BL := S); auto; try (intros; eapply B_nodup; eauto; fail); try (intros; eapply B_vs; eauto; fail); try (intros; eapply B_twin; eauto; fail); try (intros; eapply B_loop; eauto; fail).
    + apply vs_nodup.
    + intros i Hi. destruct (C i Hi). auto.
Qed.

(** ** An embedding with every vertex on the first face of its component shows that the graph is outerplanar *)
Theorem embedding_outerplanar g adj h A : rep g adj -> primary_edges g adj -> planar_embedding g adj h A -> one_root_each h A -> all_outer h A -> outerplanar_graph g adj.
Proof.
  intros R P PE Ro AO. exists (relist g h A). split; [now apply relist_perm|].
  assert (Eu : euler g (relist g h A)) by now apply (relist_euler g adj h A).
  split; [exact Eu|]. intros r Hr. destruct (relist_sur g adj h A PE r Hr) as (u & Hu & <-).
  assert (Pn : forall v, primary h v <-> primary g v) by (intros v; unfold primary; now rewrite (pe_N _ _ _ _ PE)).
  destruct (Ro u (proj2 (Pn u) Hu)) as (r0 & Hr0 & Pr0 & Cr0 & Ur0).
  pose proof (pe_rep _ _ _ _ PE) as Rh.
  assert (Cs : forall a b, connected h A a b -> connected h A b a) by (intros a b; apply (conn_sym h A A Rh); intros; apply Permutation_refl).
  exists (hd NIL (A r0)). intros v Cv Nv. destruct (relist_conn' g adj h A PE u v Cv Hu) as (w & Hw & -> & Cw). rewrite (relist_at g adj h A PE) in * by auto.
  destruct (AO w (proj2 (Pn w) Hw)) as (r1 & Hr1 & Pr1 & F1).
  assert (Cf : forall k a x, In a (A x) -> exists y, In (Nat.iter k (face_step h A) a) (A y) /\ connected h A x y).
  { induction k as [|k IH]; intros a x Ha; [exists x; split; [exact Ha|constructor]|]. destruct (IH a x Ha) as (y & H1 & H2). rewrite iter_S. exists (enbr h (Nat.iter k (face_step h A) a)). split; [|now apply conn_step with (v := y)].
    unfold face_step at 1. apply cnext_in; [apply (ch_nodup _ _ (rep_chains _ _ Rh))|]. apply (rep_twins _ _ Rh _ _ H1). }
  assert (C1 : connected h A r1 w).
  { unfold on_first_face in F1. destruct (A r1) as [|a l] eqn:Ea; [subst w; constructor|]. destruct F1 as (b & (k & Ek) & Hb). destruct (Cf k a r1) as (y & H1 & H2); [rewrite Ea; now left|].
    rewrite Ek in H1. rewrite (ch_disj _ _ (rep_chains _ _ Rh) _ _ _ Hb H1). exact H2. }
  assert (E10 : r1 = r0). { apply Ur0; auto. apply (conn_trans h A r1 w); [exact C1|]. now apply Cs. }
  subst r1. unfold on_first_face in F1. destruct (A r0) as [|a l] eqn:Ea.
  - subst w. congruence.
  - destruct F1 as (b & (k & Ek) & Hb). exists b. split; [|exact Hb]. exists k. cbn [hd]. rewrite <- Ek. apply (relist_iter g adj h A PE). exists r0. rewrite Ea. now left.
Qed.

(** ** The obstructions are decidable *)
Lemma outer_dec n (V : Z -> Prop) E : (forall x, V x <-> 1 <= x <= n) -> (forall x y, dec (E x y)) -> dec (outer_obstruction V E).
Proof.
  intros HV HE. apply dec_or.
  - apply (dec_iff (exists S, pat n E 4 (fun i j => 1 <= i < j /\ j <= 4) S)).
    + split; intros (S & K1 & K2 & K3); exists S; (split; [|split; [auto|]]).
      * intros i Hi. destruct (K1 i Hi) as [A B]. split; [auto|]. intros x Hx. now apply HV, B.
      * intros i j H1 H2. apply K3. auto.
      * intros i Hi. destruct (K1 i Hi) as [A B]. split; [auto|]. intros x Hx. now apply HV, B.
      * intros i j [H1 H2]. now apply K3.
    + apply pat_dec; auto; try lia. intros i j. unfold dec. lia.
  - apply (dec_iff (exists S, pat n E 5 (fun i j => 1 <= i <= 2 /\ 3 <= j <= 5) S)).
    + split; intros (S & K1 & K2 & K3); exists S; (split; [|split; [auto|]]).
      * intros i Hi. destruct (K1 i Hi) as [A B]. split; [auto|]. intros x Hx. now apply HV, B.
      * intros i j H1 H2. apply K3. auto.
      * intros i Hi. destruct (K1 i Hi) as [A B]. split; [auto|]. intros x Hx. now apply HV, B.
      * intros i j [H1 H2]. now apply K3.
    + apply pat_dec; auto; try lia. intros i j. unfold dec. lia.
Qed.
Lemma graph_outer_dec g adj : dec (outer_obstruction (primary g) (adjacent g adj)).
Proof. apply (outer_dec (gN g)); [intros x; reflexivity|intros x y; apply adjacent_dec]. Qed.
