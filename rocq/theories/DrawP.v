(** * DrawP: the check of visibility representations. *)
From Coq Require Import ZifyBool.
From Verif Require Import Base BaseP GraphRec GraphM GraphSpec GSimp LinkP GraphP GraphP2 GraphP3 GraphP5
  DFSM DFSSpec DFSP DFSP2 RandP2 TestM TestSpec TestP TestP3 DrawM DrawSpec.

Definition fl (g f f' : _) : graph := set_eflags (set_vflags g f) f'.

Lemma fl_id g : fl g (vflags g) (eflags g) = g.
Proof. destruct g; reflexivity. Qed.

Lemma fl_markv g f f' v b : exists f2, mark_v (fl g f f') v b = fl g f2 f' /\
  forall x, visited (fl g f2 f') x = if x =? v then b else visited (fl g f f') x.
Proof.
  eexists. split; [reflexivity|]. intros x. exact (visited_markv (fl g f f') v b x).
Qed.
Lemma fl_marke g f f' e b : exists f2, mark_e (fl g f f') e b = fl g f f2 /\
  forall x, evis (fl g f f2) x = if x =? e then b else evis (fl g f f') x.
Proof.
  eexists. split; [reflexivity|]. intros x. exact (evis_mark (fl g f f') e b x).
Qed.

(** clearing *)
Lemma clear_flags g : 0 <= gN g -> 0 <= gM g -> gholes g = [] -> 2 * gM g <= gCap g ->
  exists f f', _ClearVisitedFlags g = Ret (fl g f f') /\
    (forall v, 1 <= v <= 2 * gN g -> visited (fl g f f') v = false) /\
    (forall e, arc g e -> evis (fl g f f') e = false).
Proof.
  intros HN HM HH HC. unfold _ClearVisitedFlags, _ClearVertexVisitedFlags.
  assert (H1 : wp (for_up (Z.to_nat (gN g)) 1 (fun v g => gp_ClearVertexVisited g v) g)
     (fun s => exists f, s = fl g f (eflags g) /\ forall x, 1 <= x < 1 + Z.of_nat (Z.to_nat (gN g)) -> visited s x = false)).
  { apply (for_up_inv (fun k s => exists f, s = fl g f (eflags g) /\ forall x, 1 <= x < k -> visited s x = false)).
    - exists (vflags g). split; [symmetry; apply fl_id|]. intros; lia.
    - intros k s Hk (f & -> & Hf). rewrite clear_visit_ok by (unfold inV, gp_VertexIndexBound, fl; gsimp; lia).
      apply wp_ret. destruct (fl_markv g f (eflags g) k false) as (f2 & -> & H2). exists f2. split; [reflexivity|].
      intros x Hx. rewrite H2. destruct (x =? k) eqn:E; [reflexivity|]. apply Hf. lia. }
  apply wp_inv in H1. destruct H1 as (s1 & -> & f1 & -> & V1). cbn [bind].
  change (gN (fl g f1 (eflags g))) with (gN g).
  assert (H2 : wp (for_up (Z.to_nat (gN g)) (gN g + 1) (fun v g => gp_ClearVertexVisited g v) (fl g f1 (eflags g)))
     (fun s => exists f, s = fl g f (eflags g) /\ forall x, 1 <= x < gN g + 1 + Z.of_nat (Z.to_nat (gN g)) -> visited s x = false)).
  { apply (for_up_inv (fun k s => exists f, s = fl g f (eflags g) /\ forall x, 1 <= x < k -> visited s x = false)).
    - exists f1. split; [reflexivity|]. intros; apply V1; lia.
    - intros k s Hk (f & -> & Hf). rewrite clear_visit_ok by (unfold inV, gp_VertexIndexBound, fl; gsimp; lia).
      apply wp_ret. destruct (fl_markv g f (eflags g) k false) as (f2 & -> & H2). exists f2. split; [reflexivity|].
      intros x Hx. rewrite H2. destruct (x =? k) eqn:E; [reflexivity|]. apply Hf. lia. }
  apply wp_inv in H2. destruct H2 as (s2 & -> & f2 & -> & V2). cbn [bind].
  unfold _ClearEdgeVisitedFlags.
  assert (B : gp_EdgeInUseIndexBound (fl g f2 (eflags g)) = 2 + 2 * gM g).
  { unfold gp_EdgeInUseIndexBound, fl. gsimp. rewrite HH. cbn. lia. }
  rewrite B.
  assert (H3 : wp (for_up (Z.to_nat (2 + 2 * gM g - 2)) 2 (fun e g => gp_ClearEdgeVisited g e) (fl g f2 (eflags g)))
     (fun s => exists f', s = fl g f2 f' /\ forall x, 2 <= x < 2 + Z.of_nat (Z.to_nat (2 + 2 * gM g - 2)) -> evis s x = false)).
  { apply (for_up_inv (fun k s => exists f', s = fl g f2 f' /\ forall x, 2 <= x < k -> evis s x = false)).
    - exists (eflags g). split; [reflexivity|]. intros; lia.
    - intros k s Hk (f' & -> & Hf). rewrite clear_evis_ok by (unfold inE, gp_EdgeIndexBound, fl; gsimp; lia).
      apply wp_ret. destruct (fl_marke g f2 f' k false) as (f3 & -> & H3). exists f3. split; [reflexivity|].
      intros x Hx. rewrite H3. destruct (x =? k) eqn:E; [reflexivity|]. apply Hf. lia. }
  apply wp_inv in H3. destruct H3 as (s3 & -> & f3 & -> & V3). exists f2, f3. split; [reflexivity|]. split.
  - intros v Hv. apply V2. lia.
  - intros e He. apply V3. unfold arc in He. lia.
Qed.

Section Check.
Variable c0 : dctx.
Notation g0 := (dG c0).
Hypothesis HN : 0 <= gN g0.
Hypothesis HM : 0 <= gM g0.
Hypothesis HH : gholes g0 = [].
Hypothesis HC : 2 * gM g0 <= gCap g0.
Hypothesis HV : forall e, arc g0 e -> primary g0 (enbr g0 e).
Hypothesis HP : 0 < gM g0 \/ forall v, primary g0 v -> 0 <= row c0 v < gN g0.

Definition cx f f' : dctx := mkC (fl g0 f f') (dV c0) (dE c0).

Definition vertex_range (v : Z) : Prop := 0 < gM g0 ->
  0 <= row c0 v < gN g0 /\ 0 <= dstart (dV c0 v) <= dend (dV c0 v) /\ dend (dV c0 v) < gM g0.

Lemma check_vertices_ok f' : forall n v f, 1 <= v -> v + Z.of_nat n = gN g0 + 1 ->
  (forall x, 1 <= x <= 2 * gN g0 -> visited (fl g0 f f') x = true <-> exists u, 1 <= u < v /\ row c0 u + 1 = x) ->
  wp (check_vertices n v (cx f f')) (fun '(c', ok) => exists f2, c' = cx f2 f' /\
    (ok = true <-> forall u, v <= u <= gN g0 -> vertex_range u /\ forall u', 1 <= u' < u -> row c0 u' <> row c0 u)).
Proof.
  induction n as [|n IH]; intros v f H1 H2 HI.
  - cbn. exists f. split; [reflexivity|]. split; [intros _ u Hu; lia|reflexivity].
  - cbn [check_vertices]. unfold rd_dV.
    replace (inVI (dG (cx f f')) v) with true by (symmetry; unfold inVI, gp_PrimaryVertexIndexBound, cx, fl; cbn [dG]; gsimp; lia).
    cbn [guard bind]. change (dV (cx f f') v) with (dV c0 v). set (d := dV c0 v).
    change (gM (dG (cx f f'))) with (gM g0). change (gN (dG (cx f f'))) with (gN g0). change (dG (cx f f')) with (fl g0 f f').
    destruct ((0 <? gM g0) && _) eqn:EB.
    { cbn [wp]. exists f. split; [reflexivity|]. split; [discriminate|]. intros K. exfalso.
      destruct (K v) as (KR & _); [lia|]. unfold vertex_range, row in KR. fold d in KR. lia. }
    assert (VR : vertex_range v). { unfold vertex_range, row. fold d. intros. lia. }
    assert (RR : 0 <= dpos d < gN g0).
    { destruct HP as [K|K]; [apply VR in K; unfold row in K; fold d in K; lia|]. apply (K v). unfold primary. lia. }
    rewrite get_visited by (unfold inV, gp_VertexIndexBound, fl; gsimp; lia).
    cbn [bind]. change (negb (Z.land (vflags (fl g0 f f') (dpos d + 1)) VERTEX_VISITED_MASK =? 0)) with (visited (fl g0 f f') (dpos d + 1)).
    destruct (visited (fl g0 f f') (dpos d + 1)) eqn:EV.
    { cbn [wp]. exists f. split; [reflexivity|]. split; [discriminate|]. intros K. exfalso.
      apply HI in EV; [|lia]. destruct EV as (u & Hu & Eu). destruct (K v) as (_ & KD); [lia|].
      apply (KD u Hu). unfold row in *. fold d. lia. }
    rewrite set_visited_ok by (unfold inV, gp_VertexIndexBound, fl; gsimp; lia). cbn [bind].
    destruct (fl_markv g0 f f' (dpos d + 1) true) as (f2 & -> & H3).
    change (set_dG (cx f f') (fl g0 f2 f')) with (cx f2 f').
    eapply wp_mono; [apply (IH (v + 1) f2); [lia|lia|]|].
    + intros x Hx. rewrite H3. destruct (x =? dpos d + 1) eqn:E.
      * split; [|reflexivity]. intros _. exists v. unfold row. fold d. lia.
      * rewrite HI by lia. split; intros (u & Hu & Eu); exists u; [lia|]. split; [|exact Eu].
        assert (u <> v); [|lia]. intros ->. unfold row in Eu. fold d in Eu. lia.
    + intros (c', ok) (f3 & -> & K). exists f3. split; [reflexivity|]. rewrite K. split; intros L u Hu.
      * destruct (Z.eq_dec u v) as [->|Ne]; [|apply L; lia]. split; [exact VR|]. intros u' Hu' Eu'.
        assert (X : visited (fl g0 f f') (dpos d + 1) = true); [|congruence]. apply HI; [lia|]. exists u'.
        unfold row in *. fold d in Eu'. lia.
      * apply L. lia.
Qed.

Definition edge_range (e : Z) : Prop :=
  dE c0 (Z.lxor e 1) = dE c0 e /\
  0 <= col c0 e < gM g0 /\ 0 <= dstart (dE c0 e) <= dend (dE c0 e) /\ dend (dE c0 e) < gN g0.

Lemma drec_eq (a b : drec) : dpos a = dpos b -> dstart a = dstart b -> dend a = dend b -> a = b.
Proof. destruct a, b; cbn. intros; congruence. Qed.

Lemma twin_even k : Z.lxor (2 * k) 1 = 2 * k + 1.
Proof.
  symmetry. apply Z.add_nocarry_lxor. change 1 with (Z.ones 1). rewrite Z.land_ones by lia.
  change (2 ^ 1) with 2. rewrite Z.mul_comm. apply Z_mod_mult.
Qed.
Lemma twin_odd k : Z.lxor (2 * k + 1) 1 = 2 * k.
Proof. rewrite <- twin_even. apply twin_twin. Qed.

Lemma check_edges_ok f : forall n k f', 1 <= k -> k + Z.of_nat n = gM g0 + 1 ->
  (forall x, 0 <= x < gM g0 -> (evis (fl g0 f f') (2 * x + 2) = true <-> exists j, 1 <= j < k /\ col c0 (2 * j) = x) /\
                               (evis (fl g0 f f') (2 * x + 3) = true <-> exists j, 1 <= j < k /\ col c0 (2 * j) = x)) ->
  wp (check_edges n (2 * k) (cx f f')) (fun '(c', ok) => exists f2, c' = cx f f2 /\
    (ok = true <-> forall j, k <= j <= gM g0 -> edge_range (2 * j) /\ forall j', 1 <= j' < j -> col c0 (2 * j') <> col c0 (2 * j))).
Proof.
  induction n as [|n IH]; intros k f' H1 H2 HI.
  - cbn. exists f'. split; [reflexivity|]. split; [intros _ u Hu; lia|reflexivity].
  - cbn [check_edges]. unfold rd_dE, gp_GetTwinArc. rewrite twin_even.
    replace (inE (dG (cx f f')) (2 * k)) with true by (symmetry; unfold inE, gp_EdgeIndexBound, cx, fl; cbn [dG]; gsimp; lia).
    replace (inE (dG (cx f f')) (2 * k + 1)) with true by (symmetry; unfold inE, gp_EdgeIndexBound, cx, fl; cbn [dG]; gsimp; lia).
    cbn [guard bind]. change (dE (cx f f')) with (dE c0). set (d := dE c0 (2 * k)). set (t := dE c0 (2 * k + 1)).
    change (gM (dG (cx f f'))) with (gM g0). change (gN (dG (cx f f'))) with (gN g0). change (dG (cx f f')) with (fl g0 f f').
    match goal with |- wp (if ?b then _ else _) _ => destruct b eqn:EB end.
    { cbn [wp]. exists f'. split; [reflexivity|]. split; [discriminate|]. intros K. exfalso.
      destruct (K k) as (KR & _); [lia|]. unfold edge_range, col in KR. rewrite twin_even in KR. fold d t in KR.
      destruct KR as (KE & KR). rewrite KE in EB. lia. }
    assert (ER : edge_range (2 * k)).
    { unfold edge_range, col. rewrite twin_even. fold d t. split; [apply drec_eq; lia|]. lia. }
    assert (RR : 0 <= dpos d < gM g0) by lia.
    replace (2 * dpos d + 2) with (2 * (dpos d + 1)) by lia. rewrite twin_even.
    destruct (get_evis (fl g0 f f') (2 * (dpos d + 1))) as (z1 & Ez1 & Vz1).
    { unfold inE, gp_EdgeIndexBound, fl; gsimp; lia. }
    destruct (get_evis (fl g0 f f') (2 * (dpos d + 1) + 1)) as (z2 & Ez2 & Vz2).
    { unfold inE, gp_EdgeIndexBound, fl; gsimp; lia. }
    rewrite Ez1, Ez2. cbn [bind]. rewrite Vz1, Vz2.
    replace (2 * (dpos d + 1) + 1) with (2 * dpos d + 3) in * by lia.
    replace (2 * (dpos d + 1)) with (2 * dpos d + 2) in * by lia.
    destruct (HI (dpos d) RR) as (HA & HB).
    destruct (evis (fl g0 f f') (2 * dpos d + 2) || evis (fl g0 f f') (2 * dpos d + 3)) eqn:EV.
    { cbn [wp]. exists f'. split; [reflexivity|]. split; [discriminate|]. intros K. exfalso.
      assert (X : exists j, 1 <= j < k /\ col c0 (2 * j) = dpos d) by (apply orb_prop in EV; destruct EV; [now apply HA|now apply HB]).
      destruct X as (j & Hj & Ej). destruct (K k) as (_ & KD); [lia|]. apply (KD j Hj). exact Ej. }
    apply orb_false_iff in EV. destruct EV as (EV1 & EV2).
    rewrite set_evis_ok by (unfold inE, gp_EdgeIndexBound, fl; gsimp; lia). cbn [bind].
    destruct (fl_marke g0 f f' (2 * dpos d + 2) true) as (f2 & -> & H3).
    rewrite set_evis_ok by (unfold inE, gp_EdgeIndexBound, fl; gsimp; lia). cbn [bind].
    destruct (fl_marke g0 f f2 (2 * dpos d + 3) true) as (f3 & -> & H4).
    change (set_dG (cx f f') (fl g0 f f3)) with (cx f f3).
    replace (2 * k + 2) with (2 * (k + 1)) by lia.
    eapply wp_mono; [apply (IH (k + 1) f3); [lia|lia|]|].
    + intros x Hx. rewrite !H4, !H3. destruct (HI x Hx) as (HA' & HB').
      destruct (Z.eq_dec x (dpos d)) as [->|Ne].
      * replace (2 * dpos d + 2 =? 2 * dpos d + 3) with false by lia. rewrite !Z.eqb_refl.
        split; (split; [|reflexivity]); intros _; exists k; unfold col; fold d; lia.
      * replace (2 * x + 2 =? 2 * dpos d + 3) with false by lia. replace (2 * x + 2 =? 2 * dpos d + 2) with false by lia.
        replace (2 * x + 3 =? 2 * dpos d + 3) with false by lia. replace (2 * x + 3 =? 2 * dpos d + 2) with false by lia.
        assert (X : (exists j, 1 <= j < k /\ col c0 (2 * j) = x) <-> (exists j, 1 <= j < k + 1 /\ col c0 (2 * j) = x)).
        { split; intros (j & Hj & Ej); exists j; [lia|]. split; [|exact Ej].
          assert (j <> k); [|lia]. intros ->. unfold col in Ej. fold d in Ej. lia. }
        rewrite HA', HB', X. tauto.
    + intros (c', ok) (f4 & -> & K). exists f4. split; [reflexivity|]. rewrite K. split; intros L j Hj.
      * destruct (Z.eq_dec j k) as [->|Ne]; [|apply L; lia]. split; [exact ER|]. intros j' Hj' Ej'.
        assert (X : evis (fl g0 f f') (2 * dpos d + 2) = true); [|congruence]. apply HA. exists j'. split; [lia|]. exact Ej'.
      * apply L. lia.
Qed.

Definition good_at (e v : Z) : Prop :=
  if (enbr g0 e =? v) || (enbr g0 (Z.lxor e 1) =? v) then
    (dstart (dE c0 e) = row c0 v \/ dend (dE c0 e) = row c0 v) /\ covers c0 v (col c0 e)
  else ~ (reaches c0 e (row c0 v) /\ covers c0 v (col c0 e)).

Lemma check_crossing_ok f f' e : arc g0 e -> arc g0 (Z.lxor e 1) -> forall n v, 1 <= v -> v + Z.of_nat n = gN g0 + 1 ->
  wp (check_crossing n v e (cx f f')) (fun ok => ok = true <-> forall u, v <= u <= gN g0 -> good_at e u).
Proof.
  intros He Ht. induction n as [|n IH]; intros v H1 H2.
  - cbn. split; [intros _ u Hu; lia|reflexivity].
  - cbn [check_crossing]. unfold gp_GetNeighbor, rd_dE, rd_dV, gp_GetTwinArc. unfold arc in He, Ht.
    replace (inE (dG (cx f f')) e) with true by (symmetry; unfold inE, gp_EdgeIndexBound, cx, fl; cbn [dG]; gsimp; lia).
    replace (inE (dG (cx f f')) (Z.lxor e 1)) with true by (symmetry; unfold inE, gp_EdgeIndexBound, cx, fl; cbn [dG]; gsimp; lia).
    replace (inVI (dG (cx f f')) v) with true by (symmetry; unfold inVI, gp_PrimaryVertexIndexBound, cx, fl; cbn [dG]; gsimp; lia).
    cbn [guard bind]. change (enbr (dG (cx f f'))) with (enbr g0). change (dE (cx f f')) with (dE c0). change (dV (cx f f')) with (dV c0).
    assert (G : forall b, (b = true <-> ~ good_at e v) -> wp (if b then Ret false else check_crossing n (v + 1) e (cx f f'))
       (fun ok => ok = true <-> forall u, v <= u <= gN g0 -> good_at e u)).
    { intros [|] HB.
      - cbn. split; [discriminate|]. intros K. exfalso. apply HB; [reflexivity|]. apply K. lia.
      - eapply wp_mono; [apply (IH (v + 1)); lia|]. intros ok K. cbn beta. rewrite K. split; intros L u Hu.
        + destruct (Z.eq_dec u v) as [->|Ne]; [|apply L; lia].
          assert (D : good_at e v \/ ~ good_at e v).
          { unfold good_at. destruct (_ || _); unfold covers, reaches; lia. }
          destruct D as [D|D]; [exact D|]. apply HB in D. discriminate.
        + apply L. lia. }
    apply G. unfold good_at. destruct (_ || _); unfold covers, reaches, row, col; lia.
Qed.

Lemma check_crossings_ok f f' : forall n k, 1 <= k -> k + Z.of_nat n = gM g0 + 1 ->
  wp (check_crossings n (2 * k) (cx f f')) (fun ok => ok = true <-> forall j u, k <= j <= gM g0 -> primary g0 u -> good_at (2 * j) u).
Proof.
  induction n as [|n IH]; intros k H1 H2.
  - cbn. split; [intros _ u Hu; lia|reflexivity].
  - cbn [check_crossings]. apply wp_bind. change (gN (dG (cx f f'))) with (gN g0).
    eapply wp_mono; [apply (check_crossing_ok f f' (2 * k)); [unfold arc; lia|unfold arc; rewrite twin_even; lia|lia|lia]|].
    intros ok K. cbn beta in K. destruct ok.
    + replace (2 * k + 2) with (2 * (k + 1)) by lia. eapply wp_mono; [apply (IH (k + 1)); lia|].
      intros ok K2. cbn beta. rewrite K2. split; intros L j u Hj Hu.
      * destruct (Z.eq_dec j k) as [->|Ne]; [|apply L; auto; lia]. apply K; [reflexivity|]. unfold primary in Hu. lia.
      * apply L; auto. lia.
    + cbn. split; [discriminate|]. intros L. exfalso. assert (X : false = true); [|discriminate]. apply K.
      intros u Hu. apply L; [lia|]. unfold primary. lia.
Qed.

Lemma arc_cases e : arc g0 e -> exists k, 1 <= k <= gM g0 /\ (e = 2 * k \/ e = 2 * k + 1).
Proof.
  unfold arc. intros H. exists (e / 2). pose proof (Z.div_mod e 2 ltac:(lia)). pose proof (Z.mod_pos_bound e 2 ltac:(lia)). lia.
Qed.

Lemma check_visibility_ok :
  wp (_CheckVisibilityRepresentationIntegrity c0) (fun '(c', r) => flags_only c0 c' /\ (r = C_OK \/ r = C_NOTOK) /\
    (r = C_OK <-> visibility c0 /\ (0 < gM g0 -> in_picture c0) /\ loops_ok c0)).
Proof.
  unfold _CheckVisibilityRepresentationIntegrity. rewrite HH.
  destruct (clear_flags g0 HN HM HH HC) as (f & f' & -> & V1 & V2). cbn [bind].
  change (set_dG c0 (fl g0 f f')) with (cx f f'). change (gN (fl g0 f f')) with (gN g0).
  assert (FO : forall a b, flags_only c0 (cx a b)). { intros a b. split; [reflexivity|]. split; [reflexivity|]. exists a, b. reflexivity. }
  assert (EQ : (visibility c0 /\ (0 < gM g0 -> in_picture c0) /\ loops_ok c0) <->
    (forall u, 1 <= u <= gN g0 -> vertex_range u /\ forall u', 1 <= u' < u -> row c0 u' <> row c0 u) /\
    (forall j, 1 <= j <= gM g0 -> edge_range (2 * j) /\ forall j', 1 <= j' < j -> col c0 (2 * j') <> col c0 (2 * j)) /\
    (forall j u, 1 <= j <= gM g0 -> primary g0 u -> good_at (2 * j) u)).
  { split.
    - intros (V & P & Lp). split; [|split].
      + intros u Hu. split.
        * intros HP0. apply (pic_vertex _ (P HP0)). exact Hu.
        * intros u' Hu' E. assert (u' = u); [|lia]. apply (vis_rows _ V); auto; unfold primary; lia.
      + intros j Hj. assert (A : arc g0 (2 * j)) by (unfold arc; lia). split.
        * split; [apply (vis_twin _ V); auto|]. apply (pic_edge _ (P ltac:(lia))). exact A.
        * intros j' Hj' E. assert (A' : arc g0 (2 * j')) by (unfold arc; lia).
          destruct (vis_cols _ V (2 * j) (2 * j') A A' (eq_sym E)) as [K|K]; [lia|]. rewrite twin_even in K. lia.
      + intros j u Hj Hu. assert (A : arc g0 (2 * j)) by (unfold arc; lia).
        assert (A1 : arc g0 (2 * j + 1)) by (unfold arc; lia). unfold good_at.
        destruct (_ || _) eqn:EE.
        * pose proof (vis_touch _ V _ A) as (_ & T2). pose proof (vis_touch _ V _ A1) as (_ & T4).
          unfold col in T4. rewrite <- (vis_twin _ V (2 * j + 1) A1), twin_odd in T4. fold (col c0 (2 * j)) in T4.
          assert (TU : covers c0 u (col c0 (2 * j))).
          { rewrite twin_even in EE. apply orb_prop in EE. destruct EE as [EE|EE]; apply Z.eqb_eq in EE; subst u; assumption. }
          split; [|exact TU].
          destruct (Z.eq_dec (enbr g0 (2 * j)) (enbr g0 (Z.lxor (2 * j) 1))) as [El|Nl].
          -- pose proof (Lp _ A El) as K. apply orb_prop in EE. destruct EE as [EE|EE]; apply Z.eqb_eq in EE; [subst u|rewrite <- El in EE; subst u]; lia.
          -- pose proof (vis_span _ V (2 * j) _ _ A eq_refl eq_refl (not_eq_sym Nl)) as (S1 & S2).
             apply orb_prop in EE. destruct EE as [EE|EE]; apply Z.eqb_eq in EE; subst u; lia.
        * apply orb_false_iff in EE. destruct EE as (E1 & E2). apply Z.eqb_neq in E1, E2.
          apply (vis_clear _ V); auto.
    - intros (HA & HB & HD).
      assert (TW : forall e, arc g0 e -> dE c0 (Z.lxor e 1) = dE c0 e).
      { intros e He. destruct (arc_cases e He) as (k & Hk & [->| ->]).
        - apply (HB k Hk).
        - rewrite twin_odd. destruct (HB k Hk) as ((K & _) & _). rewrite twin_even in K. congruence. }
      assert (ED : forall e, arc g0 e -> exists k, 1 <= k <= gM g0 /\ dE c0 e = dE c0 (2 * k) /\ col c0 e = col c0 (2 * k) /\
         ((e = 2 * k /\ Z.lxor e 1 = 2 * k + 1) \/ (e = 2 * k + 1 /\ Z.lxor e 1 = 2 * k))).
      { intros e He. destruct (arc_cases e He) as (k & Hk & [->| ->]); exists k; (split; [exact Hk|]).
        - rewrite twin_even. auto.
        - pose proof (TW _ He) as K. rewrite twin_odd in *. unfold col. rewrite <- K. auto 6. }
      assert (GA : forall e u, arc g0 e -> primary g0 u -> good_at e u).
      { intros e u He Hu. destruct (ED e He) as (k & Hk & E1 & E2 & [(E3 & E4)|(E3 & E4)]).
        - rewrite E3. apply HD; auto.
        - pose proof (HD k u Hk Hu) as K. subst e. unfold good_at, reaches in *. rewrite twin_odd. rewrite twin_even in K.
          rewrite orb_comm, E1, E2. exact K. }
      assert (TT : forall e, arc g0 e -> (dstart (dE c0 e) = row c0 (enbr g0 e) \/ dend (dE c0 e) = row c0 (enbr g0 e)) /\
        covers c0 (enbr g0 e) (col c0 e)).
      { intros e He. pose proof (GA e _ He (HV e He)) as K. unfold good_at in K. rewrite Z.eqb_refl in K. exact K. }
      assert (SE : forall e, arc g0 e -> dstart (dE c0 e) <= dend (dE c0 e)).
      { intros e He. destruct (ED e He) as (k & Hk & E1 & _). rewrite E1. destruct (HB k Hk) as ((_ & _ & K & _) & _). lia. }
      assert (RW : forall u v, primary g0 u -> primary g0 v -> row c0 u = row c0 v -> u = v).
      { intros u v Hu Hv E. unfold primary in *. destruct (Z.lt_trichotomy u v) as [K|[K|K]]; [|exact K|]; exfalso.
        + apply (proj2 (HA v ltac:(lia)) u); [lia|exact E].
        + apply (proj2 (HA u ltac:(lia)) v); [lia|symmetry; exact E]. }
      assert (AT : forall e, arc g0 e -> arc g0 (Z.lxor e 1)).
      { intros e He. destruct (ED e He) as (k & Hk & _ & _ & [(E3 & E4)|(E3 & E4)]); rewrite E4; unfold arc; lia. }
      split; [constructor|split].
      + exact RW.
      + exact TW.
      + intros e f0 He Hf E. destruct (ED e He) as (k & Hk & E1 & E2 & E3). destruct (ED f0 Hf) as (k' & Hk' & E1' & E2' & E3').
        assert (k = k').
        { destruct (Z.lt_trichotomy k k') as [K|[K|K]]; [|exact K|]; exfalso.
          - apply (proj2 (HB k' Hk') k); [lia|congruence].
          - apply (proj2 (HB k Hk) k'); [lia|congruence]. }
        subst k'. lia.
      + intros e u v He <- <- Nuv.
        pose proof (TT e He) as (T1 & _). pose proof (TT _ (AT e He)) as (T2 & _). rewrite (TW e He) in T2.
        pose proof (SE e He). assert (row c0 (enbr g0 (Z.lxor e 1)) <> row c0 (enbr g0 e)).
        { intros K. apply Nuv. apply RW; auto. }
        lia.
      + intros e He. pose proof (TT e He) as (T1 & T2). pose proof (SE e He). unfold reaches. split; [lia|exact T2].
      + intros e w He Hw N1 N2. pose proof (GA e w He Hw) as K. unfold good_at in K.
        replace (enbr g0 e =? w) with false in K by (symmetry; apply Z.eqb_neq; congruence).
        replace (enbr g0 (Z.lxor e 1) =? w) with false in K by (symmetry; apply Z.eqb_neq; congruence). exact K.
      + intros HP0. constructor.
        * intros v Hv. apply (HA v); auto.
        * intros e He. destruct (ED e He) as (k & Hk & E1 & E2 & _). rewrite E1, E2. apply (HB k Hk).
      + intros e He _. pose proof (TT e He) as (T1 & _). lia. }
  apply wp_bind. eapply wp_mono; [apply (check_vertices_ok f' (Z.to_nat (gN g0)) 1 f); [lia|lia|]|].
  { intros x Hx. rewrite (V1 x Hx). split; [discriminate|]. intros (u & Hu & _). lia. }
  intros (c1, ok1) (f2 & -> & K1). destruct ok1; cbn [negb].
  2: { cbn [wp]. split; [apply FO|]. split; [auto|]. rewrite EQ. split; [discriminate|]. intros (A & _). apply K1 in A. discriminate. }
  change (dG (cx f2 f')) with (fl g0 f2 f').
  assert (B : gp_EdgeInUseIndexBound (fl g0 f2 f') = 2 + 2 * gM g0).
  { unfold gp_EdgeInUseIndexBound, fl. gsimp. rewrite HH. cbn. lia. }
  rewrite B. replace ((2 + 2 * gM g0 - 2) / 2) with (gM g0) by (replace (2 + 2 * gM g0 - 2) with (gM g0 * 2) by lia; rewrite Z.div_mul; lia).
  apply wp_bind. eapply wp_mono; [apply (check_edges_ok f2 (Z.to_nat (gM g0)) 1 f'); [lia|lia|]|].
  { intros x Hx. assert (E1 : forall e, evis (fl g0 f2 f') e = evis (fl g0 f f') e) by reflexivity.
    rewrite !E1. rewrite !V2 by (unfold arc; lia). split; (split; [discriminate|]); intros (j & Hj & _); lia. }
  intros (c2, ok2) (f3 & -> & K2). destruct ok2; cbn [negb].
  2: { cbn [wp]. split; [apply FO|]. split; [auto|]. rewrite EQ. split; [discriminate|]. intros (_ & A & _). apply K2 in A. discriminate. }
  apply wp_bind. eapply wp_mono; [apply (check_crossings_ok f2 f3 (Z.to_nat (gM g0)) 1); lia|].
  intros ok3 K3. cbn beta in K3. destruct ok3; cbn [wp]; (split; [apply FO|]); (split; [auto|]); rewrite EQ.
  - split; [|reflexivity]. intros _. split; [apply K1; reflexivity|]. split; [apply K2; reflexivity|]. apply K3. reflexivity.
  - split; [discriminate|]. intros (_ & _ & A). apply K3 in A. discriminate.
Qed.
End Check.
