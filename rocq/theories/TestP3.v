(** * TestP3: the external face check. *)
From Coq Require Import ZifyBool.
From Verif Require Import Base BaseP GraphRec GraphM GraphSpec GSimp LinkP GraphP GraphP2 GraphP3 GraphP5
  DFSM DFSSpec DFSP DFSP2 RandP2 TestM TestSpec OrbitP TestP TestP2.
From Coq Require Import Permutation.

Lemma vm_refl g : vertex_marks_only g g.
Proof. constructor; reflexivity. Qed.
Lemma vm_trans a b c : vertex_marks_only a b -> vertex_marks_only b c -> vertex_marks_only a c.
Proof.
  intros H1 H2. pose proof (vm_N _ _ H1) as EN. pose proof (vm_virtual _ _ H2) as V2. pose proof (vm_virtual _ _ H1) as V1.
  destruct H1, H2. constructor; try congruence.
  intros v H. rewrite V2; auto. unfold primary in *. now rewrite EN.
Qed.
Lemma vm_rep g h adj : vertex_marks_only g h -> rep g adj -> rep h adj.
Proof. intros [] H. apply (rep_congr g); auto. Qed.

Definition mark_v (g : graph) (v : Z) (b : bool) : graph :=
  set_vflags g (upd (vflags g) v ((if b then Z.lor else Z.ldiff) (vflags g v) VERTEX_VISITED_MASK)).
Lemma vm_mark g v b : primary g v -> vertex_marks_only g (mark_v g v b).
Proof.
  intros Hv. constructor; try reflexivity.
  - intros x. unfold mark_v; gsimp. rewrite upd_if. destruct (Z.eqb_spec x v); [subst|auto]. destruct b.
    + apply ldiff_lor_mask; reflexivity.
    + apply ldiff_ldiff_mask.
  - intros x Hx. unfold mark_v; gsimp. rewrite upd_other; auto. intros ->; auto.
Qed.
Lemma visited_markv g v b x : visited (mark_v g v b) x = if x =? v then b else visited g x.
Proof.
  unfold visited, mark_v; gsimp. rewrite upd_if. destruct (Z.eqb_spec x v); auto. subst. destruct b.
  - unfold VERTEX_VISITED_MASK. now rewrite visited_set.
  - now rewrite land_ldiff_mask.
Qed.
Lemma set_visited_ok g v : inV g v = true -> gp_SetVertexVisited g v = Ret (mark_v g v true).
Proof. intros H. unfold gp_SetVertexVisited. rewrite rd_vflags_ok by auto. cbn [bind]. now rewrite wr_vflags_ok by auto. Qed.
Lemma clear_visit_ok g v : inV g v = true -> gp_ClearVertexVisited g v = Ret (mark_v g v false).
Proof. intros H. unfold gp_ClearVertexVisited. rewrite rd_vflags_ok by auto. cbn [bind]. now rewrite wr_vflags_ok by auto. Qed.
Lemma prim_is_vertex g v : primary g v -> is_vertex g v.
Proof. unfold primary, is_vertex. lia. Qed.

Lemma clear_all_ok g : 0 <= gN g -> exists h, _ClearVertexVisitedFlags g false = Ret h /\ vertex_marks_only g h /\
  forall v, primary g v -> visited h v = false.
Proof.
  intros HN. destruct (clear_visited_ok g HN) as (f & -> & Hf). eexists; split; [reflexivity|]. split.
  - constructor; try reflexivity; gsimp.
    + intros v. rewrite Hf. destruct (_ && _); auto. apply ldiff_ldiff_mask.
    + intros v Hv. rewrite Hf. unfold primary in Hv. destruct ((1 <=? v) && (v <=? gN g)) eqn:E; auto. lia.
  - intros v Hv. unfold visited; gsimp. rewrite Hf. unfold primary in Hv.
    destruct ((1 <=? v) && (v <=? gN g)) eqn:E; [|lia]. now rewrite land_ldiff_mask.
Qed.

Lemma cnext_last_iff l e : NoDup l -> In e l -> cnext l e = hd NIL l <-> e = last l NIL.
Proof.
  intros N H. split.
  - intros E. apply (cnext_inj l); auto.
    + apply last_in. intros ->; destruct H.
    + rewrite E. destruct (list_snoc l) as [->|(l' & x & ->)]; [destruct H|].
      rewrite last_snoc. rewrite cnext_split by auto. destruct l'; reflexivity.
  - intros ->. destruct (list_snoc l) as [->|(l' & x & ->)]; [destruct H|].
    rewrite last_snoc. rewrite cnext_split by auto. destruct l'; reflexivity.
Qed.

Section Ext.
Variables (g0 : graph) (adj : Z -> list Z).
Hypothesis R : rep g0 adj.
Hypothesis P : primary_edges g0 adj.
Notation f := (face_step g0 adj).
Notation L := (all_arcs g0 adj).

Lemma prim_src e v : In e (adj v) -> primary g0 v.
Proof. apply P. Qed.
Lemma vm_inV g v : vertex_marks_only g0 g -> primary g0 v -> inV g v = true.
Proof.
  intros F H. apply inV_true. apply prim_is_vertex in H. unfold is_vertex in *. now rewrite (vm_N _ _ F).
Qed.
Lemma vm_inE g v e : vertex_marks_only g0 g -> In e (adj v) -> inE g e = true.
Proof.
  intros F H. apply (ch_range _ _ (rep_chains _ _ R)) in H. apply inE_true. unfold gp_EdgeIndexBound in *.
  rewrite (vm_cap _ _ F). lia.
Qed.

Lemma it_in k a : is_arc adj a -> is_arc adj (Nat.iter k f a).
Proof. intros H. apply (arc_L g0 adj R). apply iter_in; [apply step_closed; auto|]. now apply (arc_L g0 adj R). Qed.

Lemma mark_face_ok r a l p : adj r = a :: l -> (1 <= p)%nat -> Nat.iter p f a = a ->
  (forall k, (1 <= k < p)%nat -> Nat.iter k f a <> a) ->
  forall n k g v, (k < p)%nat -> (p - k <= n)%nat -> vertex_marks_only g0 g -> In (Nat.iter k f a) (adj v) ->
  wp (mark_face_loop n g r v (Nat.iter k f a)) (fun g' => vertex_marks_only g0 g' /\
    forall x, visited g' x = true <-> visited g x = true \/ exists j, (k <= j < p)%nat /\ In (Nat.iter j f a) (adj x)).
Proof.
  intros Er Hp Ep Min. induction n as [|n IH]; intros k g v Hk Hn Fr Hv; [lia|].
  cbn [mark_face_loop]. set (e := Nat.iter k f a) in *.
  assert (Pv : primary g0 v) by (eapply P; eauto).
  rewrite set_visited_ok by now apply vm_inV. cbn [bind].
  assert (Fr1 : vertex_marks_only g0 (mark_v g v true)).
  { eapply vm_trans; [eauto|]. apply vm_mark. unfold primary in *. now rewrite (vm_N _ _ Fr). }
  rewrite get_nbr by (apply (vm_inE _ v); auto). cbn [bind].
  rewrite (vm_enbr _ _ Fr1).
  pose proof (vm_rep _ _ _ Fr1 R) as R1.
  destruct (rep_twins _ _ R _ _ Hv) as [T1 T2].
  rewrite twin_eq, (get_cnext _ adj R1 _ _ T2). change (cnext (adj (enbr g0 e)) (twin e)) with (f e). cbn [bind].
  assert (Vr : is_vertex (mark_v g v true) r).
  { eapply (ch_isvertex _ _ _ a (rep_chains _ _ R1)). rewrite Er. now left. }
  rewrite (last_ok _ adj _ (rep_chains _ _ R1) Vr). cbn [bind].
  change (f e) with (Nat.iter (S k) f a).
  assert (Hd : In (Nat.iter (S k) f a) (adj (enbr g0 e))) by (apply step_src; [auto|exists v; auto]).
  assert (St : twin e = last (adj r) NIL <-> Nat.iter (S k) f a = a).
  { split.
    - intros E. assert (enbr g0 e = r).
      { apply (ch_disj _ _ (rep_chains _ _ R) _ _ (twin e)); auto. rewrite E. apply last_in. rewrite Er; discriminate. }
      rewrite iter_S. fold e. unfold face_step. rewrite H. replace a with (hd NIL (adj r)) by now rewrite Er.
      apply cnext_last_iff; auto. apply (ch_nodup _ _ (rep_chains _ _ R)). now rewrite <- H.
    - intros E. rewrite E in Hd. assert (enbr g0 e = r).
      { apply (ch_disj _ _ (rep_chains _ _ R) _ _ a); auto. rewrite Er; now left. }
      rewrite H in *. apply cnext_last_iff; auto.
      + apply (ch_nodup _ _ (rep_chains _ _ R)).
      + rewrite iter_S in E. fold e in E. unfold face_step in E. rewrite H in E. rewrite E, Er. reflexivity. }
  assert (Vis : forall x, visited (mark_v g v true) x = true <-> visited g x = true \/ In e (adj x)).
  { intros x. rewrite visited_markv. destruct (Z.eqb_spec x v) as [->|Nx].
    - split; auto.
    - split; [tauto|]. intros [H|H]; auto. exfalso. apply Nx. apply (ch_disj _ _ (rep_chains _ _ R) _ _ e); auto. }
  destruct (Z.eqb_spec (twin e) (last (adj r) NIL)) as [E|E].
  - apply St in E. assert (p = S k). { destruct (Nat.eq_dec p (S k)); auto. exfalso; apply (Min (S k)); auto; lia. }
    cbn [wp]. split; auto. intros x. rewrite Vis. split.
    + intros [H1|H1]; [now left|right]. exists k. split; [lia|auto].
    + intros [H1|(j & Hj & H1)]; [now left|right]. replace j with k in H1 by lia. auto.
  - assert (S k <> p) by (intros <-; tauto).
    eapply wp_mono; [apply (IH (S k)); auto; lia|].
    intros g' (F' & V'). split; auto. intros x. rewrite V', Vis. split.
    + intros [[H1|H1]|(j & Hj & H1)]; [now left| |].
      * right. exists k. split; [lia|auto].
      * right. exists j. split; [lia|auto].
    + intros [H1|(j & Hj & H1)]; [tauto|]. destruct (Nat.eq_dec j k) as [->|]; [tauto|]. right. exists j. split; [lia|auto].
Qed.

Lemma efuel_L g : gCap g = gCap g0 -> (length L <= efuel g)%nat.
Proof.
  intros E. unfold efuel, gp_EdgeIndexBound. rewrite E.
  pose proof (NoDup_range_len 2 (gp_EdgeIndexBound g0) L (NoDup_all_arcs _ _ (rep_chains _ _ R))) as B.
  assert (forall e, In e L -> 2 <= e < gp_EdgeIndexBound g0) as Q.
  { intros e He. apply (arc_L g0 adj R) in He as (v & He). now apply (ch_range _ _ (rep_chains _ _ R)) in He. }
  specialize (B Q). unfold gp_EdgeIndexBound in *. lia.
Qed.

Lemma mark_ext_ok g r : vertex_marks_only g0 g -> primary g0 r ->
  wp (_MarkExternalFaceVertices g r) (fun g' => vertex_marks_only g0 g' /\
    forall x, visited g' x = true <-> visited g x = true \/ on_first_face g0 adj r x).
Proof.
  intros Fr Hr. unfold _MarkExternalFaceVertices.
  pose proof (vm_rep _ _ _ Fr R) as R1.
  assert (Vr : is_vertex g r) by (apply prim_is_vertex; unfold primary in *; now rewrite (vm_N _ _ Fr)).
  rewrite (first_ok _ adj _ (rep_chains _ _ R1) Vr). cbn [bind].
  unfold on_first_face. destruct (adj r) as [|a l] eqn:Er; cbn [hd].
  - change (NIL =? NIL) with true. cbv iota. rewrite set_visited_ok by now apply vm_inV.
    cbn [wp]. split; [eapply vm_trans; [eauto|apply vm_mark; unfold primary in *; now rewrite (vm_N _ _ Fr)]|].
    intros x. rewrite visited_markv. destruct (Z.eqb_spec x r); intuition congruence.
  - assert (Ha : In a (adj r)) by (rewrite Er; now left).
    assert (a <> NIL) by (intros ->; now apply (rep_nonil _ _ r R)).
    destruct (Z.eqb_spec a NIL); [tauto|].
    assert (HaL : In a L) by (apply (arc_L g0 adj R); eexists; eauto).
    destruct (orbit_period f L (step_closed g0 adj R) (step_inj g0 adj R) a HaL) as (p & Hp & Ep & _ & Min).
    pose proof (mark_face_ok r a l p Er (proj1 Hp) Ep Min (efuel g) 0%nat g r) as W.
    pose proof (efuel_L g (vm_cap _ _ Fr)).
    eapply wp_mono; [apply W; auto; lia|].
    intros g' (F' & V'). split; auto. intros x. rewrite V'. split; (intros [H1|H1]; [now left|right]).
    + destruct H1 as (j & _ & H1). exists (Nat.iter j f a). split; auto. now exists j.
    + destruct H1 as (b & (k & <-) & H1).
      pose proof (orbit_in_list f L a p k HaL (proj1 Hp) Ep) as Ho. apply in_map_iff in Ho as (j & Ej & Hj). apply in_seq in Hj.
      destruct (Nat.eq_dec j p) as [->|].
      * exists 0%nat. split; [lia|]. change (Nat.iter 0 f a) with a. rewrite Ep in Ej. now rewrite Ej.
      * exists j. split; [lia|]. now rewrite Ej.
Qed.

Lemma all_visited_ok g : gN g = gN g0 -> exists b, all_visited g = Ret b /\ (b = true <-> forall v, primary g0 v -> visited g v = true).
Proof.
  intros EN. unfold all_visited. rewrite EN.
  pose proof (st_N _ _ (rep_storage _ _ R)) as HN.
  set (I := fun k (b : bool) => b = true <-> forall v, 1 <= v < k -> visited g v = true).
  assert (H : wp (for_up (Z.to_nat (gN g0)) 1 (fun v b => vis <- gp_GetVertexVisited g v ;; Ret (b && negb (vis =? 0))) true) (I (1 + Z.of_nat (Z.to_nat (gN g0))))).
  { apply for_up_inv.
    - unfold I. split; auto. intros; lia.
    - intros k b Hk Hb. rewrite get_visited by (unfold inV, gp_VertexIndexBound; lia). cbn [bind wp].
      fold (visited g k). unfold I in *. rewrite andb_true_iff, Hb. split.
      + intros (A & B) v Hv. destruct (Z.eq_dec v k) as [->|]; auto. apply A; lia.
      + intros A. split; [intros v Hv; apply A; lia|apply A; lia]. }
  apply wp_inv in H as (b & E & Hb). exists b. split; auto. unfold I in Hb. rewrite Hb.
  split; intros A v Hv; apply A; unfold primary in *; lia.
Qed.

Lemma ext_check_ok :
  wp (_CheckAllVerticesOnExternalFace g0) (fun '(g', r) => vertex_marks_only g0 g' /\ (r = C_OK \/ r = C_NOTOK) /\
    (r = C_OK <-> forall v, primary g0 v -> exists r0, primary g0 r0 /\ par g0 r0 = NIL /\ on_first_face g0 adj r0 v)).
Proof.
  unfold _CheckAllVerticesOnExternalFace. pose proof (st_N _ _ (rep_storage _ _ R)) as HN.
  destruct (clear_all_ok g0) as (h & -> & Fh & Vh); [lia|]. cbn [bind]. rewrite (vm_N _ _ Fh).
  apply wp_bind.
  set (I := fun k g => vertex_marks_only g0 g /\ forall x, primary g0 x -> visited g x = true <->
     exists r0, primary g0 r0 /\ r0 < k /\ par g0 r0 = NIL /\ on_first_face g0 adj r0 x).
  apply wp_mono with (P := I (1 + Z.of_nat (Z.to_nat (gN g0)))).
  { apply for_up_inv.
    - split; auto. intros x Hx. rewrite Vh by auto. split; [discriminate|]. intros (r0 & H1 & H2 & _). unfold primary in H1. lia.
    - intros k g Hk (Fg & Vg). assert (Pk : primary g0 k) by (unfold primary; lia).
      unfold gp_GetVertexParent, rd_vi. rewrite guard_true.
      2:{ unfold inVI, gp_PrimaryVertexIndexBound. rewrite (vm_N _ _ Fg). lia. }
      cbn [bind]. rewrite (vm_VI _ _ Fg). fold (par g0 k).
      destruct (Z.eqb_spec (par g0 k) NIL) as [E|E].
      + eapply wp_mono; [apply mark_ext_ok; eauto|]. intros g' (F' & V'). split; auto. intros x Hx.
        rewrite V', Vg by auto. split.
        * intros [(r0 & H1 & H2 & H3)|H]; [exists r0; split; auto; split; [lia|auto]|exists k; split; auto; split; [lia|auto]].
        * intros (r0 & H1 & H2 & H3 & H4). destruct (Z.eq_dec r0 k) as [->|]; [now right|left]. exists r0. split; auto. split; [lia|auto].
      + cbn [wp]. split; auto. intros x Hx. rewrite Vg by auto. split; intros (r0 & H1 & H2 & H3 & H4); exists r0; (split; [auto|]).
        * split; [lia|auto].
        * split; [|auto]. destruct (Z.eq_dec r0 k) as [->|]; [tauto|lia]. }
  intros g1 (F1 & V1). destruct (all_visited_ok g1 (vm_N _ _ F1)) as (b & -> & Hb). cbn [bind wp].
  split; auto. split; [destruct b; auto|].
  assert (Q : b = true <-> forall v, primary g0 v -> exists r0, primary g0 r0 /\ par g0 r0 = NIL /\ on_first_face g0 adj r0 v).
  { rewrite Hb. split; intros A v Hv; specialize (A v Hv).
    - apply V1 in A as (r0 & ? & ? & ? & ?); auto. exists r0; auto.
    - apply V1; auto. destruct A as (r0 & H1 & H2 & H3). exists r0. split; auto. split; [unfold primary in H1; lia|auto]. }
  rewrite <- Q. destruct b; split; auto; discriminate.
Qed.
End Ext.
