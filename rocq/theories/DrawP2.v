(** * DrawP2: ranges. *)
From Coq Require Import ZifyBool.
From Verif Require Import Base BaseP GraphRec GraphM GraphSpec GSimp LinkP GraphP GraphP2 GraphP3 GraphP5
  DFSM DFSSpec DFSP DFSP2 RandP2 TestM TestSpec TestP TestP3 DrawM DrawSpec DrawP.

(** ** Vertex ranges *)
Lemma vrange_loop_ok c : forall l n mn mx, (length l < n)%nat -> walks (enext (dG c)) l ->
  (forall e, In e l -> 2 <= e < gp_EdgeIndexBound (dG c)) ->
  wp (vrange_loop n c (hd NIL l) mn mx) (fun '(a, b) =>
    (a <= mn /\ mx <= b) /\ (forall e, In e l -> a <= col c e <= b) /\
    (a = mn \/ exists e, In e l /\ col c e = a) /\ (b = mx \/ exists e, In e l /\ col c e = b)).
Proof.
  induction l as [|e l IH]; intros n mn mx Hn W R; (destruct n as [|n]; [cbn in Hn; lia|]).
  - cbn. split; [lia|]. split; [intros e []|]. auto.
  - cbn [vrange_loop hd]. pose proof (R e (or_introl eq_refl)) as Re.
    replace (e =? NIL) with false by (unfold NIL; lia). unfold rd_dE.
    replace (inE (dG c) e) with true by (symmetry; unfold inE; lia). cbn [guard bind].
    unfold gp_GetNextArc. replace (inE (dG c) e) with true by (symmetry; unfold inE; lia). cbn [guard bind].
    destruct W as (W1 & W2). rewrite W1. cbn [length] in Hn.
    fold (col c e). eapply wp_mono; [apply IH; [lia|exact W2|intros x Hx; apply R; right; exact Hx]|].
    intros (a, b) (A & B & C & D). split; [|split; [|split]].
    + destruct (col c e <? mn) eqn:E1; destruct (mx <? col c e) eqn:E2; lia.
    + intros x [<-|Hx]; [|apply B; exact Hx]. destruct (col c e <? mn) eqn:E1; destruct (mx <? col c e) eqn:E2; lia.
    + destruct C as [C|(x & Hx & Ex)]; [|right; exists x; split; [right|]; assumption].
      destruct (col c e <? mn) eqn:E1; [right; exists e; split; [left; reflexivity|congruence]|left; exact C].
    + destruct D as [C'|(x & Hx & Ex)]; [|right; exists x; split; [right|]; assumption].
      destruct (mx <? col c e) eqn:E1; [right; exists e; split; [left; reflexivity|congruence]|left; exact C'].
Qed.

Lemma vertex_ranges_ok c adj : rep (dG c) adj ->
  (forall v e, In e (adj v) -> 0 <= col c e <= gM (dG c)) ->
  wp (_ComputeVertexRanges c) (fun '(c', r) => r = C_OK /\ dG c' = dG c /\ dE c' = dE c /\
    (forall v, row c' v = row c v) /\ (forall v, ~ primary (dG c) v -> dV c' v = dV c v) /\
    (forall v, primary (dG c) v ->
       match adj v with
       | [] => dstart (dV c' v) = 0 /\ dend (dV c' v) = 0
       | l => range_of (col c) l (dstart (dV c' v)) (dend (dV c' v))
       end)).
Proof.
  intros R HC. unfold _ComputeVertexRanges. apply wp_bind.
  pose proof (st_N _ _ (rep_storage _ _ R)) as HN.
  eapply wp_mono; [apply (for_up_inv (fun k c' => dG c' = dG c /\ dE c' = dE c /\
    (forall v, row c' v = row c v) /\ (forall v, ~ (1 <= v < k) -> dV c' v = dV c v) /\
    (forall v, 1 <= v < k ->
       match adj v with
       | [] => dstart (dV c' v) = 0 /\ dend (dV c' v) = 0
       | l => range_of (col c) l (dstart (dV c' v)) (dend (dV c' v))
       end)))|].
  - split; [reflexivity|]. split; [reflexivity|]. split; [reflexivity|]. split; [reflexivity|]. intros v Hv; lia.
  - intros k s Hk (EG & EE & ER & EO & EV). unfold vrange_one. rewrite EG.
    assert (Vk : is_vertex (dG c) k) by (unfold is_vertex; lia).
    rewrite (first_ok _ _ _ (rep_chains _ _ R) Vk). cbn [bind]. apply wp_bind.
    eapply wp_mono with (P := fun '(a, b) => match adj k with [] => a = 0 /\ b = 0 | l => range_of (col c) l a b end).
    + destruct (adj k) as [|e l] eqn:EA.
      * cbn. auto.
      * cbn [hd]. assert (Re : 2 <= e < gp_EdgeIndexBound (dG c)). { apply (ch_range _ _ (rep_chains _ _ R) k). rewrite EA. left. reflexivity. }
        replace (e =? NIL) with false by (unfold NIL; lia).
        pose proof (adj_len _ _ k (rep_chains _ _ R)) as AL. unfold efuel in AL.
        pose proof (chains_walks _ _ k (rep_chains _ _ R)) as WK. pose proof (ch_range _ _ (rep_chains _ _ R) k) as RK.
        pose proof (HC k) as HK. rewrite EA in AL, WK, RK, HK.
        eapply wp_mono; [apply (vrange_loop_ok s (e :: l))|].
        -- lia.
        -- rewrite EG. exact WK.
        -- rewrite EG. exact RK.
        -- intros (a, b) (A & B & C & D). assert (CE : forall x, col s x = col c x) by (intros x; unfold col; rewrite EE; reflexivity).
           split; [|split].
           ++ intros x Hx. rewrite <- CE. apply B. exact Hx.
           ++ destruct C as [->|(x & Hx & Ex)]; [|exists x; rewrite <- CE; auto]. exfalso.
              assert (Ie : In e (e :: l)) by (left; reflexivity). pose proof (HK e Ie). pose proof (B e Ie). rewrite CE in H0. lia.
           ++ destruct D as [->|(x & Hx & Ex)]; [|exists x; rewrite <- CE; auto]. exfalso.
              assert (Ie : In e (e :: l)) by (left; reflexivity). pose proof (HK e Ie). pose proof (B e Ie). rewrite CE in H0. lia.
    + intros (a, b) K. unfold rd_dV, wr_dV. rewrite EG.
      replace (inVI (dG c) k) with true by (symmetry; unfold inVI, gp_PrimaryVertexIndexBound; lia). cbn [guard bind wp].
      cbn [dG dV dE]. split; [reflexivity|]. split; [exact EE|]. split; [|split].
      * intros v. unfold row. cbn [dV]. unfold upd. destruct (v =? k) eqn:E; [|apply ER]. apply Z.eqb_eq in E. subst v. cbn [dpos]. apply ER.
      * intros v Hv. rewrite upd_other by lia. apply EO. lia.
      * intros v Hv. destruct (Z.eq_dec v k) as [->|Ne].
        -- rewrite upd_same. cbn [dstart dend]. exact K.
        -- rewrite upd_other by lia. apply EV. lia.
  - intros c' (EG & EE & ER & EO & EV). cbn [wp]. split; [reflexivity|]. split; [exact EG|]. split; [exact EE|]. split; [exact ER|].
    unfold primary. split; [intros v Hv; apply EO; lia|intros v Hv; apply EV; lia].
Qed.

(** ** Edge ranges *)
Lemma no_holes_arc g adj e : rep g adj -> gholes g = [] -> arc g e -> In e (adj (enbr g (twin e))).
Proof.
  intros R H A. destruct (st_cover _ _ (rep_storage _ _ R) e) as [K|K]; [|exact K|].
  - unfold gp_EdgeInUseIndexBound. rewrite H. cbn. unfold arc in A. lia.
  - rewrite H in K. destruct K.
Qed.
Lemma arc_primary g adj e : rep g adj -> gholes g = [] -> primary_edges g adj -> arc g e -> primary g (enbr g e).
Proof.
  intros R H P A.
  assert (A' : arc g (twin e)). { unfold arc, twin in *. pose proof (Z.div_mod e 2 ltac:(lia)) as D. pose proof (Z.mod_pos_bound e 2 ltac:(lia)) as D'.
    assert (C : e = 2 * (e / 2) \/ e = 2 * (e / 2) + 1) by lia. destruct C as [C|C]; rewrite C; [rewrite twin_even|rewrite twin_odd]; lia. }
  pose proof (no_holes_arc g adj _ R H A') as K. rewrite twin_invol in K.
  exact (P _ _ K).
Qed.
Lemma arcs_fit g adj : rep g adj -> gholes g = [] -> 2 * gM g <= gCap g.
Proof.
  intros R H. pose proof (st_cap _ _ (rep_storage _ _ R)) as K. unfold gp_EdgeInUseIndexBound, gp_EdgeIndexBound in K. rewrite H in K. cbn in K. lia.
Qed.

Lemma edge_ranges_ok c adj : rep (dG c) adj -> gholes (dG c) = [] -> primary_edges (dG c) adj ->
  wp (_ComputeEdgeRanges c) (fun '(c', r) => r = C_OK /\ dG c' = dG c /\ dV c' = dV c /\
    (forall e, col c' e = col c e) /\ (forall e, ~ arc (dG c) e -> dE c' e = dE c e) /\
    (forall e, arc (dG c) e ->
       dstart (dE c' e) = Z.min (row c (enbr (dG c) e)) (row c (enbr (dG c) (twin e))) /\
       dend (dE c' e) = Z.max (row c (enbr (dG c) e)) (row c (enbr (dG c) (twin e))))).
Proof.
  intros R HH HP. unfold _ComputeEdgeRanges. rewrite HH. apply wp_bind.
  pose proof (arcs_fit _ _ R HH) as HF. pose proof (st_M _ _ (rep_storage _ _ R)) as HM.
  assert (B : (gp_EdgeInUseIndexBound (dG c) - 2) / 2 = gM (dG c)).
  { unfold gp_EdgeInUseIndexBound. rewrite HH. cbn [length]. replace (2 + 2 * (gM (dG c) + Z.of_nat 0) - 2) with (gM (dG c) * 2) by lia.
    apply Z.div_mul. lia. }
  rewrite B.
  eapply wp_mono; [apply (for_up_inv (fun k c' => dG c' = dG c /\ dV c' = dV c /\
    (forall e, col c' e = col c e) /\ (forall e, ~ (2 <= e < 2 * k) -> dE c' e = dE c e) /\
    (forall e, 2 <= e < 2 * k ->
       dstart (dE c' e) = Z.min (row c (enbr (dG c) e)) (row c (enbr (dG c) (twin e))) /\
       dend (dE c' e) = Z.max (row c (enbr (dG c) e)) (row c (enbr (dG c) (twin e))))))|].
  - split; [reflexivity|]. split; [reflexivity|]. split; [reflexivity|]. split; [reflexivity|]. intros v Hv; lia.
  - intros k s Hk (EG & EV & EC & EO & EE). unfold erange_one, gp_GetTwinArc. rewrite twin_even.
    unfold gp_GetNeighbor, rd_dV, rd_dE, wr_dE. rewrite EG.
    assert (A0 : arc (dG c) (2 * k)) by (unfold arc; lia). assert (A1 : arc (dG c) (2 * k + 1)) by (unfold arc; lia).
    assert (I0 : inE (dG c) (2 * k) = true) by (unfold inE, gp_EdgeIndexBound; lia).
    assert (I1 : inE (dG c) (2 * k + 1) = true) by (unfold inE, gp_EdgeIndexBound; lia).
    rewrite I0, I1. cbn [guard bind].
    pose proof (arc_primary _ _ _ R HH HP A0) as P0. pose proof (arc_primary _ _ _ R HH HP A1) as P1. unfold primary in P0, P1.
    replace (inVI (dG c) (enbr (dG c) (2 * k))) with true by (symmetry; unfold inVI, gp_PrimaryVertexIndexBound; lia).
    replace (inVI (dG c) (enbr (dG c) (2 * k + 1))) with true by (symmetry; unfold inVI, gp_PrimaryVertexIndexBound; lia).
    cbn [guard bind]. rewrite EV. fold (row c (enbr (dG c) (2 * k))). fold (row c (enbr (dG c) (2 * k + 1))).
    set (p := row c (enbr (dG c) (2 * k))). set (q := row c (enbr (dG c) (2 * k + 1))).
    replace (if p <? q then (p, q) else (q, p)) with (Z.min p q, Z.max p q) by (destruct (p <? q) eqn:E; f_equal; lia).
    cbn [guard bind dG dE dV]. rewrite I1. cbn [guard bind wp dG dE dV].
    assert (T0 : twin (2 * k) = 2 * k + 1) by (apply twin_even). assert (T1 : twin (2 * k + 1) = 2 * k) by apply twin_odd.
    split; [first [exact EG|reflexivity]|]. split; [first [exact EV|reflexivity]|]. split; [|split].
    + intros e. unfold col. cbn [dE]. unfold upd. destruct (e =? 2 * k + 1) eqn:E1.
      * cbn [dpos]. replace (2 * k + 1 =? 2 * k) with false by lia. assert (e = 2 * k + 1) by lia. subst e. apply EC.
      * destruct (e =? 2 * k) eqn:E2; [|apply EC]. cbn [dpos]. assert (e = 2 * k) by lia. subst e. apply EC.
    + intros e He. rewrite !upd_other by lia. apply EO. lia.
    + intros e He. destruct (Z.eq_dec e (2 * k + 1)) as [->|N1]; [rewrite upd_same; cbn [dstart dend]; rewrite T1; fold p q; lia|].
      rewrite (upd_other _ (2 * k + 1)) by lia. destruct (Z.eq_dec e (2 * k)) as [->|N2].
      * rewrite upd_same. cbn [dstart dend]. rewrite T0. fold p q. lia.
      * rewrite upd_other by lia. apply EE. lia.
  - intros c' (EG & EV & EC & EO & EE). cbn [wp]. split; [reflexivity|]. split; [exact EG|]. split; [exact EV|]. split; [exact EC|].
    unfold arc. split; [intros e He; apply EO; lia|intros e He; apply EE; lia].
Qed.
