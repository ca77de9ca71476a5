(** * DFSP3: sorting the vertices. *)
From Verif Require Import Base BaseP GraphRec GraphM GraphSpec GSimp LinkP GraphP GraphP5 DFSM DFSSpec DFSP DFSP2.

(** the index fields number the primary vertices 1..N *)
Definition numbering (g : graph) (f : Z -> Z) : Prop :=
  (forall v, primary g v -> primary g (f v)) /\ (forall v w, primary g v -> primary g w -> f v = f w -> v = w).

Definition tr (f : Z -> Z) (x : Z) : Z := if x =? NIL then NIL else f x.

Lemma swapf_spec f a b x : swapf f a b x = f (if x =? b then a else if x =? a then b else x).
Proof.
  unfold swapf, upd. destruct (x =? b) eqn:E1; [reflexivity|]. destruct (x =? a) eqn:E2; reflexivity.
Qed.

Lemma lor_ldiff f m : Z.lor (Z.ldiff f m) m = Z.lor f m.
Proof.
  apply Z.bits_inj'. intros n Hn. rewrite !Z.lor_spec, Z.ldiff_spec. destruct (Z.testbit f n), (Z.testbit m n); reflexivity.
Qed.

(** The neighbours in the records of an edge are both present or both absent. *)
Lemma pair_nil g adj e : rep g adj -> primary_edges g adj -> 2 <= e < gp_EdgeInUseIndexBound g ->
  (primary g (enbr g e) /\ primary g (enbr g (twin e))) \/ (enbr g e = NIL /\ enbr g (twin e) = NIL).
Proof.
  intros R P He. destruct (st_cover _ _ (rep_storage _ _ R) e He) as [H|H].
  - left. destruct (rep_twins _ _ R _ _ H) as [_ H2]. split; [now apply (P _ _ H2)|now apply (P _ _ H)].
  - right. apply in_map_iff in H. destruct H as (h & E & Hh). destruct (st_holes _ _ (rep_storage _ _ R) h Hh) as (B1 & B2 & B3).
    destruct (div2_eq_twin h e) as [->| ->]; auto; try lia. split; [|auto]. unfold twin in B3. now rewrite twin_twin in B3.
Qed.

Section Sort.
Variable g : graph.
Hypotheses (HN : 1 <= gN g) (HM : 0 <= gM g) (HC : gp_EdgeInUseIndexBound g <= gp_EdgeIndexBound g).
Hypothesis Pair : forall e, 2 <= e < gp_EdgeInUseIndexBound g ->
  (primary g (enbr g e) /\ primary g (enbr g (twin e))) \/ (enbr g e = NIL /\ enbr g (twin e) = NIL).
Hypothesis Num : numbering g (vindex g).
Let pi := vindex g.

Lemma pi_nonnil v : primary g v -> pi v <> NIL.
Proof. intros H. destruct (proj1 Num v H). unfold pi, NIL. lia. Qed.

Lemma relabel_edges_ok :
  exists f, for_up (Z.to_nat ((gp_EdgeInUseIndexBound g - 2) / 2)) 0 (fun i g => relabel_edge g (2 + 2 * i)) g = Ret (set_enbr g f) /\
    forall x, f x = if (2 <=? x) && (x <? gp_EdgeInUseIndexBound g) then tr pi (enbr g x) else enbr g x.
Proof.
  set (B := gp_EdgeInUseIndexBound g) in *. set (k0 := gM g + Z.of_nat (length (gholes g))).
  assert (EB : B = 2 + 2 * k0) by (unfold B, gp_EdgeInUseIndexBound, k0; lia).
  replace ((B - 2) / 2) with k0 by (rewrite EB; replace (2 + 2 * k0 - 2) with (k0 * 2) by lia; symmetry; apply Z.div_mul; lia).
  pose (Q := fun k (s : graph) => exists f, s = set_enbr g f /\
    forall x, f x = if (2 <=? x) && (x <? 2 + 2 * k) then tr pi (enbr g x) else enbr g x).
  assert (W : wp (for_up (Z.to_nat k0) 0 (fun i g => relabel_edge g (2 + 2 * i)) g) (Q (0 + Z.of_nat (Z.to_nat k0)))).
  { apply for_up_inv.
    - exists (enbr g). split; [destruct g; reflexivity|]. intros x. replace ((2 <=? x) && (x <? 2 + 2 * 0)) with false by lia. reflexivity.
    - intros k s Hk (f & -> & Hf). unfold relabel_edge. set (e := 2 + 2 * k).
      assert (Te : twin e = e + 1).
      { unfold twin. rewrite lxor_1 by lia. replace (Z.even e) with true; [reflexivity|]. unfold e.
        rewrite Z.even_add, Z.even_mul. reflexivity. }
      assert (He : 2 <= e < B) by lia.
      assert (I1 : inE (set_enbr g f) e = true) by (unfold inE, gp_EdgeIndexBound in *; gsimp; lia).
      assert (I2 : forall h, inE (set_enbr g h) (e + 1) = true) by (intros h; unfold inE, gp_EdgeIndexBound in *; gsimp; lia).
      rewrite (get_nbr _ _ I1). cbn [bind]. gsimp.
      assert (F1 : f e = enbr g e) by (rewrite Hf; replace ((2 <=? e) && (e <? 2 + 2 * k)) with false by lia; reflexivity).
      assert (F2 : f (e + 1) = enbr g (e + 1)) by (rewrite Hf; replace ((2 <=? e + 1) && (e + 1 <? 2 + 2 * k)) with false by lia; reflexivity).
      rewrite F1.
      destruct (Pair e He) as [[B1 B2]|[B1 B2]].
      + assert (N1 : (enbr g e =? NIL) = false) by (destruct B1; apply Z.eqb_neq; unfold NIL; lia).
        rewrite N1. cbn [negb].
        assert (V1 : forall h, inV (set_enbr g h) (enbr g e) = true) by (intros h; unfold primary, inV, gp_VertexIndexBound in *; gsimp; lia).
        assert (V2 : forall h, inV (set_enbr g h) (enbr g (e + 1)) = true) by (intros h; rewrite <- Te; unfold primary, inV, gp_VertexIndexBound in *; gsimp; lia).
        unfold gp_GetVertexIndex. rewrite guard_true by apply V1. cbn [bind].
        rewrite (set_nbr _ _ _ I1). cbn [bind]. gsimp.
        rewrite get_nbr by apply I2. cbn [bind]. gsimp. rewrite upd_other by lia. rewrite F2.
        rewrite guard_true by apply V2. cbn [bind].
        rewrite set_nbr by apply I2. apply wp_ret.
        exists (upd (upd f e (pi (enbr g e))) (e + 1) (pi (enbr g (e + 1)))). split; [reflexivity|].
        intros x. unfold upd. destruct (x =? e + 1) eqn:X1; [|destruct (x =? e) eqn:X2].
        * replace ((2 <=? x) && (x <? 2 + 2 * (k + 1))) with true by lia. apply Z.eqb_eq in X1. subst x.
          unfold tr. rewrite (eqb_false_neq (enbr g (e + 1))); [reflexivity|]. rewrite <- Te. destruct B2. unfold NIL. lia.
        * replace ((2 <=? x) && (x <? 2 + 2 * (k + 1))) with true by lia. apply Z.eqb_eq in X2. subst x.
          unfold tr. rewrite N1. reflexivity.
        * rewrite Hf. replace ((2 <=? x) && (x <? 2 + 2 * (k + 1))) with ((2 <=? x) && (x <? 2 + 2 * k)) by lia. reflexivity.
      + rewrite B1. cbn [Z.eqb negb NIL]. apply wp_ret. exists f. split; [reflexivity|]. intros x. rewrite Hf.
        destruct ((2 <=? x) && (x <? 2 + 2 * k)) eqn:X1.
        * replace ((2 <=? x) && (x <? 2 + 2 * (k + 1))) with true by lia. reflexivity.
        * destruct ((2 <=? x) && (x <? 2 + 2 * (k + 1))) eqn:X2; [|reflexivity].
          assert (x = e \/ x = twin e) as [-> | ->] by lia; unfold tr; rewrite ?B1, ?B2; reflexivity. }
  apply wp_inv in W. destruct W as (s & E & f & -> & Hf). exists f. split; [exact E|]. intros x. rewrite Hf.
  replace (2 + 2 * (0 + Z.of_nat (Z.to_nat k0))) with B by lia. reflexivity.
Qed.

Lemma relabel_parents_ok g1 : gN g1 = gN g -> vindex g1 = vindex g -> gVI g1 = gVI g ->
  (forall v, primary g v -> par g v <> NIL -> primary g (par g v)) ->
  exists f, for_up (Z.to_nat (gN g1)) 1 (fun v g => relabel_parent g v) g1 = Ret (set_gVI g1 (set_viParent (gVI g) f)) /\
    forall x, f x = if (1 <=? x) && (x <=? gN g) then tr pi (par g x) else par g x.
Proof.
  intros EN EI EV Hp.
  pose (Q := fun k (s : graph) => exists f, s = set_gVI g1 (set_viParent (gVI g) f) /\
    forall x, f x = if (1 <=? x) && (x <? k) then tr pi (par g x) else par g x).
  assert (W : wp (for_up (Z.to_nat (gN g1)) 1 (fun v g => relabel_parent g v) g1) (Q (1 + Z.of_nat (Z.to_nat (gN g1))))).
  { apply for_up_inv.
    - exists (viParent (gVI g)). split.
      + rewrite <- EV. destruct g1 as [? ? ? ? ? ? ? ? ? ? ? ? ? ? ? ? ? i ?]. destruct i. reflexivity.
      + intros x. replace ((1 <=? x) && (x <? 1)) with false by lia. reflexivity.
    - intros k s Hk (f & -> & Hf). unfold relabel_parent, gp_GetVertexParent, rd_vi.
      assert (I : inVI (set_gVI g1 (set_viParent (gVI g) f)) k = true) by (unfold inVI, gp_PrimaryVertexIndexBound; gsimp; lia).
      rewrite (guard_true _ _ I). cbn [bind]. gsimp.
      assert (Fk : f k = par g k) by (rewrite Hf; replace ((1 <=? k) && (k <? k)) with false by lia; reflexivity).
      rewrite Fk. destruct (par g k =? NIL) eqn:E; cbn [negb].
      + apply wp_ret. exists f. split; [reflexivity|]. intros x. rewrite Hf. destruct (Z.eq_dec x k) as [->|].
        * replace ((1 <=? k) && (k <? k)) with false by lia. replace ((1 <=? k) && (k <? k + 1)) with true by lia.
          unfold tr. rewrite E. apply Z.eqb_eq in E. auto.
        * replace ((1 <=? x) && (x <? k + 1)) with ((1 <=? x) && (x <? k)) by lia. reflexivity.
      + assert (Pk : primary g k) by (split; lia). apply Z.eqb_neq in E. destruct (Hp k Pk E) as [P1 P2].
        unfold gp_GetVertexIndex. rewrite guard_true by (unfold inV, gp_VertexIndexBound; gsimp; lia). cbn [bind].
        unfold gp_SetVertexParent. rewrite (guard_true _ _ I). apply wp_ret. gsimp. rewrite EI.
        exists (upd f k (pi (par g k))). split; [reflexivity|]. intros x. unfold upd. destruct (x =? k) eqn:X.
        * apply Z.eqb_eq in X. subst x. replace ((1 <=? k) && (k <? k + 1)) with true by lia. unfold tr.
          now rewrite (eqb_false_neq _ _ E).
        * rewrite Hf. replace ((1 <=? x) && (x <? k + 1)) with ((1 <=? x) && (x <? k)) by lia. reflexivity. }
  apply wp_inv in W. destruct W as (s & E & f & -> & Hf). exists f. split; [exact E|]. intros x. rewrite Hf.
  replace (x <? 1 + Z.of_nat (Z.to_nat (gN g1))) with (x <=? gN g) by lia. reflexivity.
Qed.
End Sort.

(** *** The cycles *)
(** [s] is [g1] with the vertex records permuted: position x holds the record of [h x]; the
    positions in D are done. *)
Record placed (g1 s : graph) (h : Z -> Z) (D : list Z) : Prop := {
  pl_rest : s = set_gVI (set_vflags (set_vindex (set_vlast (set_vfirst g1 (vfirst s)) (vlast s)) (vindex s)) (vflags s)) (gVI s);
  pl_first : forall x, vfirst s x = vfirst g1 (h x);
  pl_last : forall x, vlast s x = vlast g1 (h x);
  pl_index : forall x, vindex s x = if in_dec Z.eq_dec x D then h x else vindex g1 (h x);
  pl_flags : forall x, vflags s x = if in_dec Z.eq_dec x D then Z.lor (vflags g1 (h x)) VERTEX_VISITED_MASK else vflags g1 (h x);
  pl_vi : forall x, viParent (gVI s) x = viParent (gVI g1) (h x) /\ viLeast (gVI s) x = viLeast (gVI g1) (h x) /\
    viLow (gVI s) x = viLow (gVI g1) (h x) /\ viVisited (gVI s) x = viVisited (gVI g1) (h x) /\
    viPertEdge (gVI s) x = viPertEdge (gVI g1) (h x) /\ viPertRoots (gVI s) x = viPertRoots (gVI g1) (h x) /\
    viFPChild (gVI s) x = viFPChild (gVI g1) (h x) /\ viSDC (gVI s) x = viSDC (gVI g1) (h x) /\ viFwd (gVI s) x = viFwd (gVI g1) (h x);
  pl_inj : forall x y, h x = h y -> x = y;
  pl_D : NoDup D;
  pl_Dp : forall x, In x D -> primary g1 x /\ vindex g1 (h x) = x;
  pl_p : forall x, primary g1 x -> primary g1 (h x) }.

Section Cycle.
Variable g1 : graph.
Hypothesis Num : numbering g1 (vindex g1).
Hypothesis Clear : forall v, primary g1 v -> visited g1 v = false.

Lemma cycle_step s h D v : placed g1 s h D -> primary g1 v -> ~ In v D ->
  (forall x, ~ In x D -> x <> v -> h x = x) ->
  let dst := vindex g1 (h v) in
  exists s', (dstPos <- gp_GetVertexIndex s v ;;
      g <- gp_SwapVertexRec s dstPos v ;;
      g <- gp_SwapVertexInfo g dstPos v ;;
      g <- gp_SetVertexVisited g dstPos ;;
      g <- gp_SetVertexIndex g dstPos (h v) ;; Ret (g, dstPos)) = Ret (s', dst) /\
    placed g1 s' (fun x => h (if x =? v then dst else if x =? dst then v else x)) (dst :: D) /\
    primary g1 dst /\ ~ In dst D.
Proof.
  intros Pl Pv Nv Hid dst. pose proof (pl_p _ _ _ _ Pl v Pv) as Ph.
  assert (Pd : primary g1 dst) by (apply Num; auto).
  assert (Nd : ~ In dst D).
  { intros Hi. destruct (pl_Dp _ _ _ _ Pl dst Hi) as [_ E]. unfold dst in E at 2.
    apply (proj2 Num) in E; auto; [|now apply (pl_p _ _ _ _ Pl)]. apply (pl_inj _ _ _ _ Pl) in E. congruence. }
  assert (EN : gN s = gN g1) by (rewrite (pl_rest _ _ _ _ Pl); reflexivity).
  assert (Iv : inV s v = true /\ inVI s v = true /\ inV s dst = true /\ inVI s dst = true).
  { destruct Pv, Pd. unfold inV, inVI, gp_VertexIndexBound, gp_PrimaryVertexIndexBound. rewrite EN. lia. }
  destruct Iv as (I1 & I2 & I3 & I4).
  assert (Ei : vindex s v = dst).
  { rewrite (pl_index _ _ _ _ Pl). destruct (in_dec Z.eq_dec v D); [tauto|reflexivity]. }
  unfold gp_GetVertexIndex. rewrite (guard_true _ _ I1). cbn [bind]. rewrite Ei.
  unfold gp_SwapVertexRec. rewrite guard_true by (now rewrite I1, I3). cbn [bind].
  unfold gp_SwapVertexInfo. rewrite guard_true by (unfold inVI, gp_PrimaryVertexIndexBound in *; gsimp; lia). cbn [bind].
  unfold gp_SetVertexVisited. rewrite rd_vflags_ok by (exact I3). cbn [bind]. rewrite wr_vflags_ok by (exact I3). cbn [bind].
  unfold gp_SetVertexIndex. rewrite guard_true by exact I3. cbn [bind]. gsimp.
  set (sw := fun x => if x =? v then dst else if x =? dst then v else x).
  assert (SW : forall (f : Z -> Z) x, swapf f dst v x = f (sw x)) by (intros; apply swapf_spec).
  assert (SWi : forall x y, sw x = sw y -> x = y).
  { intros x y. unfold sw. destruct (x =? v) eqn:X1, (y =? v) eqn:Y1; try lia;
    destruct (x =? dst) eqn:X2; try (destruct (y =? dst) eqn:Y2); lia. }
  assert (SWd : sw dst = v). { unfold sw. destruct (dst =? v) eqn:X; [lia|]. now rewrite Z.eqb_refl. }
  assert (SWv : sw v = dst) by (unfold sw; now rewrite Z.eqb_refl).
  assert (SWo : forall x, x <> v -> x <> dst -> sw x = x).
  { intros x X1 X2. unfold sw. now rewrite (eqb_false_neq x v), (eqb_false_neq x dst) by auto. }
  eexists. split; [reflexivity|]. split; [|split; [auto|auto]].
  change (fun x => h (if x =? v then dst else if x =? dst then v else x)) with (fun x => h (sw x)).
  constructor; gsimp.
  - destruct s. cbn in Pl |- *. pose proof (pl_rest _ _ _ _ Pl) as E. cbn in E. injection E as -> -> -> -> -> -> -> -> -> -> -> -> -> ->.
    reflexivity.
  - intros x. rewrite SW. apply (pl_first _ _ _ _ Pl).
  - intros x. rewrite SW. apply (pl_last _ _ _ _ Pl).
  - intros x. unfold upd. destruct (x =? dst) eqn:X.
    + apply Z.eqb_eq in X. subst x. rewrite SWd. destruct (in_dec Z.eq_dec dst (dst :: D)) as [|N]; [reflexivity|].
      exfalso; apply N; now left.
    + apply Z.eqb_neq in X. rewrite SW, (pl_index _ _ _ _ Pl).
      destruct (Z.eq_dec x v) as [->|Nx].
      * rewrite SWv. destruct (in_dec Z.eq_dec dst D); [tauto|].
        destruct (in_dec Z.eq_dec v (dst :: D)) as [[E|E]|]; [congruence|tauto|reflexivity].
      * rewrite SWo by auto. destruct (in_dec Z.eq_dec x D) as [I|I]; destruct (in_dec Z.eq_dec x (dst :: D)) as [J|J]; try reflexivity.
        -- exfalso; apply J; now right.
        -- destruct J; [congruence|tauto].
  - intros x. unfold upd. destruct (x =? dst) eqn:X.
    + apply Z.eqb_eq in X. subst x. rewrite SW, (pl_flags _ _ _ _ Pl), SWd.
      destruct (in_dec Z.eq_dec v D); [tauto|].
      destruct (in_dec Z.eq_dec dst (dst :: D)) as [|N]; [reflexivity|]. exfalso; apply N; now left.
    + apply Z.eqb_neq in X. rewrite SW, (pl_flags _ _ _ _ Pl).
      destruct (Z.eq_dec x v) as [->|Nx].
      * rewrite SWv. destruct (in_dec Z.eq_dec dst D); [tauto|].
        destruct (in_dec Z.eq_dec v (dst :: D)) as [[E|E]|]; [congruence|tauto|reflexivity].
      * rewrite SWo by auto. destruct (in_dec Z.eq_dec x D) as [I|I]; destruct (in_dec Z.eq_dec x (dst :: D)) as [J|J]; try reflexivity.
        -- exfalso; apply J; now right.
        -- destruct J; [congruence|tauto].
  - intros x. rewrite !SW. apply (pl_vi _ _ _ _ Pl).
  - intros x y E. apply (pl_inj _ _ _ _ Pl) in E. auto.
  - apply NoDup_cons; [auto|apply (pl_D _ _ _ _ Pl)].
  - intros x [<-|Hx]; [rewrite SWd; auto|]. rewrite SWo; [now apply (pl_Dp _ _ _ _ Pl)| |]; intros ->; auto.
  - intros x Hx. apply (pl_p _ _ _ _ Pl). unfold sw. destruct (x =? v); [auto|]. destruct (x =? dst); auto.
Qed.

Lemma placed_visited s h D x : placed g1 s h D -> primary g1 x -> visited s x = if in_dec Z.eq_dec x D then true else false.
Proof.
  intros Pl Px. unfold visited. rewrite (pl_flags _ _ _ _ Pl). destruct (in_dec Z.eq_dec x D).
  - unfold VERTEX_VISITED_MASK. now rewrite visited_set.
  - apply (Clear (h x)). now apply (pl_p _ _ _ _ Pl).
Qed.
Lemma placed_len s h D : placed g1 s h D -> 0 <= gN g1 -> Z.of_nat (length D) <= gN g1.
Proof.
  intros Pl HN. pose proof (nodup_range_length D 1 (gN g1 + 1) (pl_D _ _ _ _ Pl)) as H.
  enough (Z.of_nat (length D) <= Z.max 0 (gN g1 + 1 - 1)) by lia. apply H. intros x Hx.
  destruct (pl_Dp _ _ _ _ Pl x Hx) as [[] _]. lia.
Qed.

Lemma cycle_loop_ok v : primary g1 v -> forall n s h D, placed g1 s h D ->
  (forall x, ~ In x D -> x <> v -> h x = x) -> gN g1 - Z.of_nat (length D) + 1 < Z.of_nat n ->
  wp (cycle_loop n s v (h v)) (fun s' => exists h' D', placed g1 s' h' D' /\ In v D' /\ incl D D' /\
     forall x, ~ In x D' -> h' x = x).
Proof.
  intros Pv. induction n as [|n IH]; intros s h D Pl Hid Hn.
  { assert (0 <= gN g1) by (destruct Pv; lia). pose proof (placed_len _ _ _ Pl H). lia. }
  cbn [cycle_loop].
  assert (EN : gN s = gN g1) by (rewrite (pl_rest _ _ _ _ Pl); reflexivity).
  assert (I1 : inV s v = true) by (destruct Pv; unfold inV, gp_VertexIndexBound; rewrite EN; lia).
  rewrite (get_visited _ _ I1). cbn [bind].
  pose proof (placed_visited _ _ _ v Pl Pv) as Vv. unfold visited in Vv. rewrite Vv.
  destruct (in_dec Z.eq_dec v D) as [Iv|Nv].
  - apply wp_ret. exists h, D. split; [auto|]. split; [auto|]. split; [apply incl_refl|].
    intros x Hx. apply Hid; [auto|]. intros ->; auto.
  - destruct (cycle_step s h D v Pl Pv Nv Hid) as (s' & E & Pl' & Pd & Nd).
    set (dst := vindex g1 (h v)) in *. set (h' := fun x => h (if x =? v then dst else if x =? dst then v else x)) in *.
    destruct (gp_GetVertexIndex s v) as [d| |]; cbn [bind] in *; try discriminate.
    destruct (gp_SwapVertexRec s d v) as [s1| |]; cbn [bind] in *; try discriminate.
    destruct (gp_SwapVertexInfo s1 d v) as [s2| |]; cbn [bind] in *; try discriminate.
    destruct (gp_SetVertexVisited s2 d) as [s3| |]; cbn [bind] in *; try discriminate.
    destruct (gp_SetVertexIndex s3 d (h v)) as [s4| |]; cbn [bind] in *; try discriminate.
    injection E as -> ->.
    assert (Hid' : forall x, ~ In x (dst :: D) -> x <> v -> h' x = x).
    { intros x Nx Nxv. cbn [In] in Nx. unfold h'. rewrite (eqb_false_neq x v) by auto.
      rewrite (eqb_false_neq x dst) by (intros ->; tauto). apply Hid; tauto. }
    assert (Hdst : h' v = dst \/ dst = v).
    { destruct (Z.eq_dec dst v) as [|N]; [auto|left]. unfold h'. rewrite Z.eqb_refl. now apply Hid. }
    destruct Hdst as [Hd|Hd].
    + rewrite <- Hd at 1. eapply wp_mono; [apply (IH s' h' (dst :: D) Pl' Hid')|].
      * cbn [length]. lia.
      * intros s'' (h2 & D2 & Q1 & Q2 & Q3 & Q4). exists h2, D2. do 2 (split; [auto|]). split; [|auto].
        intros x Hx. apply Q3. now right.
    + (* the cycle closes *)
      destruct n as [|n].
      { pose proof (placed_len _ _ _ Pl' ltac:(destruct Pv; lia)) as L. cbn [length] in L. lia. }
      cbn [cycle_loop]. assert (EN' : gN s' = gN g1) by (rewrite (pl_rest _ _ _ _ Pl'); reflexivity).
      assert (I1' : inV s' v = true) by (destruct Pv; unfold inV, gp_VertexIndexBound; rewrite EN'; lia).
      rewrite (get_visited _ _ I1'). cbn [bind].
      pose proof (placed_visited _ _ _ v Pl' Pv) as Vv'. unfold visited in Vv'. rewrite Vv'.
      destruct (in_dec Z.eq_dec v (dst :: D)) as [Iv|N]; [|exfalso; apply N; left; auto].
      apply wp_ret. exists h', (dst :: D). split; [auto|]. split; [auto|]. split; [intros x Hx; now right|].
      intros x Hx. apply Hid'; [auto|]. intros ->. auto.
Qed.

Lemma cycles_ok : 1 <= gN g1 ->
  exists s h D, for_up (Z.to_nat (gN g1)) 1 (fun v g => cycle_loop (S (S (Z.to_nat (gN g)))) g v v) g1 = Ret s /\
    placed g1 s h D /\ (forall v, primary g1 v <-> In v D) /\ (forall x, ~ primary g1 x -> h x = x).
Proof.
  intros HN.
  pose (Q := fun k (s : graph) => exists h D, placed g1 s h D /\ (forall x, ~ In x D -> h x = x) /\ forall v, 1 <= v < k -> In v D).
  assert (W : wp (for_up (Z.to_nat (gN g1)) 1 (fun v g => cycle_loop (S (S (Z.to_nat (gN g)))) g v v) g1) (Q (1 + Z.of_nat (Z.to_nat (gN g1))))).
  { apply for_up_inv.
    - exists (fun x => x), []. split; [|split; [auto|intros; lia]].
      constructor; try (intros; reflexivity); auto.
      + destruct g1; reflexivity.
      + intros x. repeat split.
      + constructor.
      + intros x [].
    - intros k s Hk (h & D & Pl & Hid & Hin).
      assert (Pk : primary g1 k) by (split; lia).
      assert (EN : gN s = gN g1) by (rewrite (pl_rest _ _ _ _ Pl); reflexivity). rewrite EN.
      pose proof (placed_len _ _ _ Pl ltac:(lia)) as L.
      destruct (in_dec Z.eq_dec k D) as [Ik|Nk].
      + cbn [cycle_loop]. assert (I1 : inV s k = true) by (destruct Pk; unfold inV, gp_VertexIndexBound; rewrite EN; lia).
        rewrite (get_visited _ _ I1). cbn [bind].
        pose proof (placed_visited _ _ _ k Pl Pk) as Vv. unfold visited in Vv. rewrite Vv.
        destruct (in_dec Z.eq_dec k D) as [_|N]; [|tauto]. apply wp_ret. exists h, D. do 2 (split; [auto|]).
        intros v Hv. destruct (Z.eq_dec v k) as [->|]; [auto|]. apply Hin; lia.
      + pose proof (cycle_loop_ok k Pk (S (S (Z.to_nat (gN g1)))) s h D Pl ltac:(auto) ltac:(lia)) as W.
        rewrite (Hid k Nk) in W. eapply wp_mono; [exact W|]. intros s' (h' & D' & Q1 & Q2 & Q3 & Q4).
        exists h', D'. do 2 (split; [auto|]). intros v Hv. destruct (Z.eq_dec v k) as [->|]; [auto|]. apply Q3, Hin; lia. }
  apply wp_inv in W. destruct W as (s & E & h & D & Pl & Hid & Hin). exists s, h, D. split; [exact E|]. split; [exact Pl|].
  split.
  - intros v. split; [intros [H1 H2]; apply Hin; lia|]. intros Hv. apply (pl_Dp _ _ _ _ Pl v Hv).
  - intros x Hx. apply Hid. intros Hi. apply Hx. apply (pl_Dp _ _ _ _ Pl x Hi).
Qed.
End Cycle.
