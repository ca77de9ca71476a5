(** * GraphP7: hiding and restoring vertices. *)
From Coq Require Import ZifyBool.
From Verif Require Import Base BaseP GraphRec GraphM GraphSpec GSimp LinkP GraphP GraphP2 GraphP3 GraphP4 GraphP5 GraphP6.

(** ** The edge operations do not look at the stack *)
Definition with_stack (s : list Z) (g : graph) : res graph := Ret (set_gstack g s).

Lemma detach_stack g s arc : gp_DetachArc (set_gstack g s) arc = bind (gp_DetachArc g arc) (with_stack s).
Proof.
  unfold gp_DetachArc, gp_GetNextArc, gp_GetPrevArc, gp_GetNeighbor, gp_SetPrevArc, gp_SetNextArc, gp_SetLastArc, gp_SetFirstArc, guard, with_stack.
  unfold inE, inV, gp_EdgeIndexBound, gp_VertexIndexBound. gsimp.
  repeat (match goal with |- context [if ?c then _ else _] => destruct c end; cbn [bind]; gsimp; try reflexivity).
Qed.
Lemma restore_arc_stack g s arc : _RestoreArc (set_gstack g s) arc = bind (_RestoreArc g arc) (with_stack s).
Proof.
  unfold _RestoreArc, gp_GetNextArc, gp_GetPrevArc, gp_GetNeighbor, gp_SetPrevArc, gp_SetNextArc, gp_SetLastArc, gp_SetFirstArc, guard, with_stack.
  unfold inE, inV, gp_EdgeIndexBound, gp_VertexIndexBound. gsimp.
  repeat (match goal with |- context [if ?c then _ else _] => destruct c end; cbn [bind]; gsimp; try reflexivity).
Qed.
Lemma hide_stack g s e : gp_HideEdge (set_gstack g s) e = bind (gp_HideEdge g e) (with_stack s).
Proof.
  unfold gp_HideEdge. rewrite detach_stack. destruct (gp_DetachArc g e); cbn [bind]; try reflexivity.
  unfold with_stack at 1. cbn [bind]. apply detach_stack.
Qed.
Lemma restore_stack g s e : gp_RestoreEdge (set_gstack g s) e = bind (gp_RestoreEdge g e) (with_stack s).
Proof.
  unfold gp_RestoreEdge. rewrite restore_arc_stack. destruct (_RestoreArc g _); cbn [bind]; try reflexivity.
  unfold with_stack at 1. cbn [bind]. apply restore_arc_stack.
Qed.

Lemma push_ok g x : Z.of_nat (length (gstack g)) < gstackCap g -> stk_push g x = Ret (set_gstack g (x :: gstack g)).
Proof. intros H. unfold stk_push. apply guard_true. lia. Qed.

(** ** Counting arcs *)
Lemma flat_map_filter {A B} (f : A -> list B) p l : flat_map (fun x => filter p (f x)) l = filter p (flat_map f l).
Proof. induction l; cbn [flat_map]; [reflexivity|]. now rewrite filter_app, IHl. Qed.
Lemma len_rem x l : NoDup l -> In x l -> (length (rem x l) + 1 = length l)%nat.
Proof.
  intros N H. destruct (in_split _ _ H) as (a & b & ->). rewrite rem_split by auto. rewrite !app_length. cbn [length]. lia.
Qed.
Lemma NoDup_rem x l : NoDup l -> NoDup (rem x l).
Proof. apply NoDup_filter. Qed.
Lemma all_arcs_remove g g' adj e v :
  chains g adj -> twins_ok g adj -> In e (adj v) -> gN g' = gN g ->
  (length (all_arcs g' (adj_remove adj e)) + 2 = length (all_arcs g adj))%nat.
Proof.
  intros C T H HN. destruct (T _ _ H) as [_ H2].
  assert (E : all_arcs g' (adj_remove adj e) = rem (twin e) (rem e (all_arcs g adj))).
  { unfold all_arcs, rem. rewrite HN. rewrite <- !flat_map_filter. apply flat_map_ext. intros a. apply adj_remove_rem. }
  rewrite E. pose proof (NoDup_all_arcs _ _ C) as N.
  assert (I1 : In e (all_arcs g adj)) by (apply in_all_arcs; eauto).
  assert (I2 : In (twin e) (rem e (all_arcs g adj))).
  { apply in_rem. split; [apply in_all_arcs; eauto|apply twin_ne]. }
  pose proof (len_rem _ _ (NoDup_rem e _ N) I2). pose proof (len_rem _ _ N I1). lia.
Qed.
Lemma all_arcs_ext g g' adj adj' : gN g' = gN g -> (forall v, adj' v = adj v) -> all_arcs g' adj' = all_arcs g adj.
Proof. intros HN H. unfold all_arcs. rewrite HN. apply flat_map_ext, H. Qed.

Lemma all_arcs_without es : forall g g' adj,
  chains g adj -> twins_ok g adj -> distinct_edges adj es -> gN g' = gN g ->
  (length (all_arcs g' (adj_without adj es)) + 2 * length es = length (all_arcs g adj))%nat.
Proof.
  induction es as [|e es IH]; intros g g' adj C T D HN.
  - rewrite (all_arcs_ext g g' adj) by (auto; intros; apply adj_without_nil). cbn [length]. lia.
  - cbn [distinct_edges] in D. destruct D as ((v & Hv) & D1 & D2 & D3).
    destruct (wp_inv _ _ (hide_ok g adj e v C T Hv)) as (g1 & _ & [C1 T1 F1 _ _]).
    pose proof (IH g1 g' (adj_remove adj e) C1 T1 (distinct_remove _ _ _ D1 D2 D3)) as H.
    rewrite (fl_N _ _ F1) in H. specialize (H HN).
    rewrite (all_arcs_ext g' g' (adj_without adj (e :: es)) (adj_without (adj_remove adj e) es)) in H
      by (auto; intros; apply adj_without_cons).
    pose proof (all_arcs_remove g g1 adj e v C T Hv (fl_N _ _ F1)). cbn [length]. lia.
Qed.

(** ** One vertex *)
Lemma own_edges g adj v : chains g adj -> twins_ok g adj -> no_loops g adj -> distinct_edges adj (adj v).
Proof.
  intros C T L.
  assert (H : forall l, NoDup l -> incl l (adj v) -> distinct_edges adj l).
  { induction l as [|e l IH]; cbn [distinct_edges]; auto. intros N I. apply NoDup_cons_iff in N. destruct N as [N1 N2].
    assert (He : In e (adj v)) by (apply I; simpl; auto).
    split; [eauto|]. split; [auto|]. split; [|apply IH; auto; intros x Hx; apply I; simpl; auto].
    intros H. assert (Ht : In (twin e) (adj v)) by (apply I; simpl; auto).
    apply (L v e He). destruct (T _ _ Ht) as [X _]. now rewrite twin_invol in X. }
  apply H; [apply C|apply incl_refl].
Qed.

Lemma without_vertex g adj v w :
  chains g adj -> twins_ok g adj -> no_loops g adj ->
  adj_without adj (adj v) w = adj_without_vertex g adj v w.
Proof.
  intros C T L. unfold adj_without, adj_without_vertex.
  assert (EX : forall x, existsb (fun e => (x =? e) || (x =? twin e)) (adj v) = true <-> In x (adj v) \/ In (twin x) (adj v)).
  { intros x. rewrite existsb_exists. split.
    - intros (e & He & H). apply orb_true_iff in H. destruct H as [H|H]; apply Z.eqb_eq in H; subst; auto.
      right. now rewrite twin_invol.
    - intros [H|H]; [exists x|exists (twin x)]; rewrite ?twin_invol, ?Z.eqb_refl, ?orb_true_r; auto. }
  destruct (Z.eqb_spec w v) as [->|Hw].
  - assert (A : forall l, incl l (adj v) -> filter (fun x => negb (existsb (fun e => (x =? e) || (x =? twin e)) (adj v))) l = []).
    { induction l as [|a l IH]; intros I; cbn [filter]; auto.
      rewrite (proj2 (EX a)) by (left; apply I; simpl; auto). cbn [negb]. apply IH. intros x Hx; apply I; simpl; auto. }
    apply A, incl_refl.
  - assert (A : forall l, incl l (adj w) -> filter (fun x => negb (existsb (fun e => (x =? e) || (x =? twin e)) (adj v))) l
                 = filter (fun x => negb (enbr g x =? v)) l).
    { induction l as [|a l IH]; intros I; cbn [filter]; auto. rewrite IH by (intros x Hx; apply I; simpl; auto).
      assert (Ha : In a (adj w)) by (apply I; simpl; auto). destruct (T _ _ Ha) as [T1 T2].
      replace (existsb (fun e => (a =? e) || (a =? twin e)) (adj v)) with (enbr g a =? v); [reflexivity|].
      destruct (existsb _ _) eqn:E.
      - apply EX in E. destruct E as [E|E].
        + exfalso. apply Hw. eapply ch_disj; eauto.
        + apply Z.eqb_eq. eapply ch_disj; eauto.
      - apply Z.eqb_neq. intros HH. rewrite HH in T2. assert (existsb (fun e => (a =? e) || (a =? twin e)) (adj v) = true); [|congruence].
        apply EX. auto. }
    apply A, incl_refl.
Qed.

Lemma hide_vertex_loop_ok v l : forall n g adj s,
  chains g adj -> twins_ok g adj -> no_loops g adj -> adj v = l -> (length l < n)%nat ->
  Z.of_nat (length s) + Z.of_nat (length l) <= gstackCap g ->
  exists g1, hide_all g l = Ret g1 /\ hide_vertex_loop n (set_gstack g s) (hd NIL l) = Ret (set_gstack g1 (rev l ++ s)).
Proof.
  induction l as [|e l IH]; intros n g adj s C T L E Hn Hs; (destruct n as [|n]; [cbn [length] in Hn; lia|]); cbn [hide_vertex_loop hide_all hd].
  - exists g. split; reflexivity.
  - cbn [length] in Hn, Hs.
    assert (He : In e (adj v)) by (rewrite E; simpl; auto).
    pose proof (ch_range _ _ C _ _ He) as Re. destruct (T _ _ He) as [T1 T2].
    rewrite eqb_false_neq by (unfold NIL; lia).
    unfold stk_push. gsimp. replace (_ <? _) with true by lia. rewrite guard_true, bind_ret by reflexivity.
    destruct (wp_inv _ _ (hide_ok g adj e v C T He)) as (g1 & Hh & [C1 T1' F1 Nx _]).
    change (set_gstack (set_gstack g s) (e :: s)) with (set_gstack g (e :: s)).
    rewrite hide_stack, Hh. cbn [bind]. unfold with_stack. rewrite bind_ret.
    assert (I1 : inE (set_gstack g1 (e :: s)) e = true).
    { apply inE_true. unfold gp_EdgeIndexBound in *. gsimp. rewrite (fl_cap _ _ F1). lia. }
    rewrite get_next by exact I1. rewrite bind_ret. gsimp. rewrite Nx by (rewrite T1; apply (L _ _ He)).
    destruct (chains_links g adj v [] e l C E) as [_ ->].
    assert (Nd : NoDup (e :: l)) by (rewrite <- E; apply C).
    assert (E1 : adj_remove adj e v = l).
    { rewrite adj_remove_rem, E. change (e :: l) with ([] ++ e :: l). rewrite (rem_split e [] l) by exact Nd. cbn [app].
      apply rem_notin. intros H. assert (Ht : In (twin e) (adj v)) by (rewrite E; simpl; auto).
      apply (L v e He). destruct (T _ _ Ht) as [X _]. now rewrite twin_invol in X. }
    destruct (IH n g1 (adj_remove adj e) (e :: s) C1 T1') as (g2 & H1 & H2); auto; try lia.
    + intros w x Hx. apply in_adj_remove in Hx. rewrite (fl_enbr _ _ F1). apply (L w x). tauto.
    + cbn [length]. rewrite (fl_stackCap _ _ F1). lia.
    + exists g2. split; [exact H1|]. rewrite H2. cbn [rev]. now rewrite <- app_assoc.
Qed.

Lemma restore_hidden_ok es : forall n h s, (length es < n)%nat -> (forall e, In e es -> e <> NIL) ->
  restore_hidden_loop n (set_gstack h (es ++ s)) (Z.of_nat (length s))
  = (h' <- restore_all h es ;; Ret (set_gstack h' s, C_OK)).
Proof.
  induction es as [|e es IH]; intros n h s Hn Hz; (destruct n as [|n]; [cbn [length] in Hn; lia|]); cbn [restore_hidden_loop restore_all app].
  - unfold stk_size. gsimp. replace (_ >? _) with false by lia. reflexivity.
  - cbn [length] in Hn. unfold stk_size. gsimp. cbn [length]. rewrite app_length.
    replace (_ >? _) with true by lia. unfold stk_pop. gsimp. cbn [bind].
    rewrite eqb_false_neq by (apply Hz; simpl; auto).
    change (set_gstack (set_gstack h (e :: es ++ s)) (es ++ s)) with (set_gstack h (es ++ s)).
    rewrite restore_stack. destruct (gp_RestoreEdge h e) as [h1| |]; cbn [bind]; try reflexivity.
    unfold with_stack. cbn [bind]. apply IH; [lia|]. intros x Hx. apply Hz; simpl; auto.
Qed.

(** Restoring undoes: from any state [h] with the links of [g1] and the stack that hiding left. *)
Definition vundoes (g g1 : graph) (s1 s : list Z) : Prop :=
  forall h, eq_links h g1 -> gN h = gN g -> gCap h = gCap g -> (forall x, enbr h x = enbr g x) ->
    exists h', gp_RestoreVertex (set_gstack h s1) = Ret (set_gstack h' s, C_OK) /\ eq_links h' g /\ frame_links h h'.

Lemma hide_vertex_ok g adj v s :
  chains g adj -> twins_ok g adj -> no_loops g adj -> is_vertex g v ->
  Z.of_nat (length s) + Z.of_nat (length (adj v)) + 7 <= gstackCap g ->
  exists g1 s1, gp_HideVertex (set_gstack g s) v = Ret (set_gstack g1 s1, C_OK) /\
    chains g1 (adj_without_vertex g adj v) /\ twins_ok g1 (adj_without_vertex g adj v) /\ frame_links g g1 /\
    s1 = v :: NIL :: NIL :: NIL :: NIL :: NIL :: Z.of_nat (length s) :: rev (adj v) ++ s /\
    vundoes g g1 s1 s.
Proof.
  intros C T L Hv Hs.
  destruct (hide_vertex_loop_ok v (adj v) (efuel g) g adj s C T L eq_refl) as (g1 & H1 & H2); [exact (adj_len _ _ v C)|lia|].
  pose proof (hide_all_ok (adj v) g adj C T (own_edges _ _ v C T L)) as W. rewrite H1 in W. cbn [wp] in W.
  destruct W as (C1 & T1 & F1 & U).
  eexists g1, _. split; [|split; [|split; [|split; [exact F1|split; [reflexivity|]]]]].
  - unfold gp_HideVertex. rewrite eqb_false_neq by (unfold is_vertex, NIL in *; lia).
    unfold _HideVertex. rewrite get_first by (apply inV_true; unfold is_vertex, gp_VertexIndexBound in *; gsimp; lia).
    rewrite bind_ret. gsimp. rewrite (ch_first _ _ C v Hv).
    change (efuel (set_gstack g s)) with (efuel g). rewrite H2, bind_ret.
    repeat (rewrite push_ok by (gsimp; cbn [length]; rewrite ?app_length, ?rev_length, ?(fl_stackCap _ _ F1); lia); rewrite bind_ret).
    reflexivity.
  - eapply chains_ext; [exact C1|]. intros w. now rewrite (without_vertex g).
  - intros w x Hx. rewrite <- (without_vertex g) in * by auto. auto.
  - intros h EL HN HC Hnb.
    destruct (wp_inv _ _ (U h EL HN HC Hnb)) as (h' & R & EL' & F').
    exists h'. split; [|split; auto].
    unfold gp_RestoreVertex, stk_size. gsimp. cbn [length]. rewrite app_length.
    replace (_ <? 7) with false by lia.
    unfold stk_pop. repeat (gsimp; cbn [bind]). change (negb (NIL =? NIL)) with false. cbv iota.
    repeat (gsimp; cbn [bind]). unfold _RestoreHiddenEdges. gsimp.
    match goal with |- restore_hidden_loop ?n ?x _ = _ => change x with (set_gstack h (rev (adj v) ++ s)) end.
    rewrite restore_hidden_ok.
    + rewrite R. reflexivity.
    + rewrite app_length. lia.
    + intros e He. apply in_rev in He. pose proof (ch_range _ _ C _ _ He). unfold NIL. lia.
Qed.

(** ** Any sequence of vertices *)
Definition adj_without_vertices (g : graph) (adj : Z -> list Z) (vs : list Z) : Z -> list Z :=
  fold_left (adj_without_vertex g) vs adj.

Lemma adj_wv_ext g g' adj v : (forall x, enbr g' x = enbr g x) -> forall w, adj_without_vertex g' adj v w = adj_without_vertex g adj v w.
Proof. intros H w. unfold adj_without_vertex. destruct (w =? v); auto. apply filter_ext. intros x. now rewrite H. Qed.
Lemma adj_wv_ext2 g adj adj' v : (forall w, adj' w = adj w) -> forall w, adj_without_vertex g adj' v w = adj_without_vertex g adj v w.
Proof. intros H w. unfold adj_without_vertex. now rewrite H. Qed.
Lemma adj_wvs_ext g g' vs : (forall x, enbr g' x = enbr g x) -> forall adj adj', (forall w, adj' w = adj w) ->
  forall w, adj_without_vertices g' adj' vs w = adj_without_vertices g adj vs w.
Proof.
  intros Hn. induction vs as [|v vs IH]; intros adj adj' H w; cbn [adj_without_vertices fold_left]; auto.
  apply IH. intros x. rewrite (adj_wv_ext g g') by auto. now apply adj_wv_ext2.
Qed.

Lemma loops_without g g1 adj v : (forall x, enbr g1 x = enbr g x) -> no_loops g adj -> no_loops g1 (adj_without_vertex g adj v).
Proof.
  intros Hn L w x Hx. rewrite Hn. unfold adj_without_vertex in Hx. destruct (w =? v); [destruct Hx|].
  apply filter_In in Hx. apply (L w x). tauto.
Qed.

Lemma hide_vertices_ok vs : forall g adj s,
  chains g adj -> twins_ok g adj -> no_loops g adj -> (forall v, In v vs -> is_vertex g v) ->
  2 * Z.of_nat (length s) + Z.of_nat (length (all_arcs g adj)) + 14 * Z.of_nat (length vs) <= 2 * gstackCap g ->
  exists g1 s1, hide_vertices (set_gstack g s) vs = Ret (set_gstack g1 s1) /\
    chains g1 (adj_without_vertices g adj vs) /\ frame_links g g1 /\ (length vs + length s <= length s1)%nat /\
    forall h, eq_links h g1 -> gN h = gN g -> gCap h = gCap g -> (forall x, enbr h x = enbr g x) ->
      exists h', eq_links h' g /\ frame_links h h' /\
        forall n, restore_vertices_loop (length vs + n) (set_gstack h s1) = restore_vertices_loop n (set_gstack h' s).
Proof.
  induction vs as [|v vs IH]; intros g adj s C T L HV Hs; cbn [hide_vertices].
  - exists g, s. split; [reflexivity|]. split; [exact C|]. split; [apply frame_links_refl|]. split; [cbn [length]; lia|].
    intros h EL HN HC Hnb. exists h. split; [auto|]. split; [apply frame_links_refl|]. reflexivity.
  - cbn [length] in Hs.
    assert (Vv : is_vertex g v) by (apply HV; simpl; auto).
    pose proof (all_arcs_without (adj v) g g adj C T (own_edges _ _ v C T L) eq_refl) as CNT.
    destruct (hide_vertex_ok g adj v s C T L Vv) as (g1 & s1 & H1 & C1 & T1 & F1 & Es & U); [lia|].
    rewrite H1. cbn [bind]. change (C_OK =? C_OK) with true. cbv iota.
    assert (Ln : length s1 = (7 + length (adj v) + length s)%nat).
    { rewrite Es. cbn [length]. rewrite app_length, rev_length. lia. }
    assert (CN1 : length (all_arcs g1 (adj_without_vertex g adj v)) = length (all_arcs g (adj_without adj (adj v)))).
    { f_equal. apply all_arcs_ext; [apply F1|]. intros w. symmetry. now apply without_vertex. }
    destruct (IH g1 (adj_without_vertex g adj v) s1 C1 T1) as (g2 & s2 & H2 & C2 & F2 & Ln2 & U2).
    + apply loops_without; auto. intros x. now rewrite (fl_enbr _ _ F1).
    + intros w Hw. apply (frame_vertex _ _ _ F1), HV. simpl; auto.
    + rewrite (fl_stackCap _ _ F1). rewrite CN1. lia.
    + exists g2, s2. split; [exact H2|]. split; [|split; [|split]].
      * eapply chains_ext; [exact C2|]. intros w.
        change (adj_without_vertices g adj (v :: vs)) with (adj_without_vertices g (adj_without_vertex g adj v) vs).
        symmetry. apply (adj_wvs_ext g g1); auto. intros x. now rewrite (fl_enbr _ _ F1).
      * eapply frame_links_trans; eauto.
      * cbn [length]. lia.
      * intros h EL HN HC Hnb.
        destruct (U2 h EL) as (h1 & EL1 & FL1 & R1); [rewrite (fl_N _ _ F1); auto|rewrite (fl_cap _ _ F1); auto|intros x; rewrite (fl_enbr _ _ F1); auto|].
        destruct (U h1 EL1) as (h2 & R2 & EL2 & FL2); [rewrite (fl_N _ _ FL1); auto|rewrite (fl_cap _ _ FL1); auto|intros x; rewrite (fl_enbr _ _ FL1); auto|].
        exists h2. split; [auto|]. split; [eapply frame_links_trans; eauto|].
        intros n. cbn [length]. replace (S (length vs) + n)%nat with (length vs + S n)%nat by lia.
        rewrite R1. cbn [restore_vertices_loop]. gsimp. rewrite Es at 1. cbv iota. rewrite R2. reflexivity.
Qed.

(** ** _HideInternalEdges *)
Lemma distinct_incl adj l : forall es, NoDup es -> incl es l -> (forall e, In e es -> ~ In (twin e) l) ->
  (forall e, In e l -> exists v, In e (adj v)) -> distinct_edges adj es.
Proof.
  induction es as [|e es IH]; cbn [distinct_edges]; auto. intros N I T H.
  apply NoDup_cons_iff in N. destruct N as [N1 N2].
  split; [apply H, I; simpl; auto|]. split; [auto|]. split.
  - intros X. apply (T e); [simpl; auto|]. apply I. simpl; auto.
  - apply IH; auto; [intros x Hx; apply I; simpl; auto|intros x Hx; apply T; simpl; auto].
Qed.

Lemma hide_internal_loop_ok v a b mid : forall n g adj s,
  chains g adj -> twins_ok g adj -> no_loops g adj -> adj v = a :: mid ++ [b] -> (length mid < n)%nat ->
  Z.of_nat (length s) + Z.of_nat (length mid) <= gstackCap g ->
  exists g1, hide_all g mid = Ret g1 /\ hide_internal_loop n (set_gstack g s) v (hd b mid) = Ret (set_gstack g1 (rev mid ++ s)).
Proof.
  induction mid as [|e mid IH]; intros n g adj s C T L E Hn Hs; (destruct n as [|n]; [cbn [length] in Hn; lia|]); cbn [hide_internal_loop hide_all hd].
  - assert (Vv : is_vertex g v) by (apply (ch_isvertex _ _ _ b C); rewrite E; simpl; auto).
    rewrite get_last by (apply inV_true; unfold is_vertex, gp_VertexIndexBound in *; gsimp; lia).
    rewrite bind_ret. gsimp. rewrite (ch_last _ _ C v Vv), E. cbn [app last]. rewrite Z.eqb_refl.
    exists g. split; reflexivity.
  - cbn [length] in Hn, Hs.
    assert (Vv : is_vertex g v) by (apply (ch_isvertex _ _ _ a C); rewrite E; simpl; auto).
    assert (He : In e (adj v)) by (rewrite E; simpl; auto).
    assert (Nd : NoDup (a :: e :: mid ++ [b])) by (replace (a :: e :: mid ++ [b]) with (adj v); apply C).
    pose proof (ch_range _ _ C _ _ He) as Re. destruct (T _ _ He) as [T1 T2].
    rewrite get_last by (apply inV_true; unfold is_vertex, gp_VertexIndexBound in *; gsimp; lia).
    rewrite bind_ret. gsimp. rewrite (ch_last _ _ C v Vv), E.
    replace (a :: (e :: mid) ++ [b]) with ((a :: e :: mid) ++ [b]) by reflexivity. rewrite last_snoc.
    assert (Neb : e <> b).
    { intros ->. apply NoDup_cons_iff in Nd. destruct Nd as [_ Nd]. apply NoDup_cons_iff in Nd. destruct Nd as [Nd _].
      apply Nd. rewrite in_app_iff. simpl; auto. }
    rewrite eqb_false_neq by auto.
    unfold stk_push. gsimp. replace (_ <? _) with true by lia. rewrite guard_true, bind_ret by reflexivity.
    destruct (wp_inv _ _ (hide_ok g adj e v C T He)) as (g1 & Hh & [C1 T1' F1 Nx _]).
    change (set_gstack (set_gstack g s) (e :: s)) with (set_gstack g (e :: s)).
    rewrite hide_stack, Hh. cbn [bind]. unfold with_stack. rewrite bind_ret.
    assert (I1 : inE (set_gstack g1 (e :: s)) e = true).
    { apply inE_true. unfold gp_EdgeIndexBound in *. gsimp. rewrite (fl_cap _ _ F1). lia. }
    rewrite get_next by exact I1. rewrite bind_ret. gsimp. rewrite Nx by (rewrite T1; apply (L _ _ He)).
    destruct (chains_links g adj v [a] e (mid ++ [b]) C E) as [_ ->].
    assert (E1 : adj_remove adj e v = a :: mid ++ [b]).
    { rewrite adj_remove_rem, E. change (a :: (e :: mid) ++ [b]) with ([a] ++ e :: (mid ++ [b])).
      rewrite (rem_split e [a] (mid ++ [b])) by exact Nd. cbn [app].
      apply rem_notin. intros H. assert (Ht : In (twin e) (adj v)) by (rewrite E; simpl in *; tauto).
      apply (L v e He). destruct (T _ _ Ht) as [X _]. now rewrite twin_invol in X. }
    destruct (IH n g1 (adj_remove adj e) (e :: s) C1 T1') as (g2 & H1 & H2); auto; try lia.
    + intros w x Hx. apply in_adj_remove in Hx. rewrite (fl_enbr _ _ F1). apply (L w x). tauto.
    + cbn [length]. rewrite (fl_stackCap _ _ F1). lia.
    + exists g2. split; [exact H1|].
      replace (hd NIL (mid ++ [b])) with (hd b mid) by (destruct mid; reflexivity).
      rewrite H2. cbn [rev]. now rewrite <- app_assoc.
Qed.

Lemma hide_internal_ok g adj v a mid b :
  chains g adj -> twins_ok g adj -> no_loops g adj -> adj v = a :: mid ++ [b] ->
  Z.of_nat (length (gstack g)) + Z.of_nat (length mid) <= gstackCap g ->
  exists g1, _HideInternalEdges g v = Ret (g1, C_OK) /\ chains g1 (adj_without adj mid) /\
    frame_links g (set_gstack g1 (gstack g)) /\
    exists g2, _RestoreInternalEdges g1 (Z.of_nat (length (gstack g))) = Ret (g2, C_OK) /\ geq g2 g.
Proof.
  intros C T L E Hs.
  assert (Vv : is_vertex g v) by (apply (ch_isvertex _ _ _ a C); rewrite E; simpl; auto).
  assert (Nd : NoDup (a :: mid ++ [b])) by (rewrite <- E; apply C).
  assert (D : distinct_edges adj mid).
  { apply (distinct_incl adj (adj v)).
    - apply NoDup_cons_iff in Nd. destruct Nd as [_ Nd]. exact (NoDup_app_l _ _ Nd).
    - rewrite E. intros x Hx. simpl. rewrite in_app_iff. auto.
    - intros e He Ht. assert (In e (adj v)) by (rewrite E; simpl; rewrite in_app_iff; auto).
      apply (L v e H). destruct (T _ _ Ht) as [X _]. now rewrite twin_invol in X.
    - intros e He. eauto. }
  destruct (hide_internal_loop_ok v a b mid (efuel g) g adj (gstack g) C T L E) as (g1 & H1 & H2).
  { pose proof (adj_len _ _ v C) as HL. rewrite E in HL. cbn [length] in HL. rewrite app_length in HL. lia. }
  { lia. }
  assert (Eg : set_gstack g (gstack g) = g) by (destruct g; reflexivity). rewrite Eg in H2.
  pose proof (hide_all_ok mid g adj C T D) as W. rewrite H1 in W. cbn [wp] in W.
  destruct W as (C1 & T1 & F1 & U).
  exists (set_gstack g1 (rev mid ++ gstack g)).
  assert (Ia : 2 <= a < gp_EdgeIndexBound g) by (apply (ch_range _ _ C v); rewrite E; simpl; auto).
  split; [|split; [|split]].
  - unfold _HideInternalEdges.
    rewrite get_first, bind_ret by (apply inV_true; unfold is_vertex, gp_VertexIndexBound in *; lia).
    rewrite get_last, bind_ret by (apply inV_true; unfold is_vertex, gp_VertexIndexBound in *; lia).
    rewrite (ch_first _ _ C v Vv), (ch_last _ _ C v Vv), E. cbn [hd].
    replace (a :: mid ++ [b]) with ((a :: mid) ++ [b]) by reflexivity. rewrite last_snoc.
    assert (Nab : a <> b).
    { intros ->. apply NoDup_cons_iff in Nd. apply (proj1 Nd). rewrite in_app_iff. simpl; auto. }
    rewrite eqb_false_neq by auto. rewrite get_next, bind_ret by (apply inE_true; lia).
    destruct (chains_links g adj v [] a (mid ++ [b]) C E) as [_ ->].
    replace (hd NIL (mid ++ [b])) with (hd b mid) by (destruct mid; reflexivity).
    rewrite H2. reflexivity.
  - eapply chains_congr; [..|exact C1]; reflexivity.
  - destruct F1. constructor; gsimp; auto.
  - destruct (wp_inv _ _ (U g1 (eq_links_refl _) (fl_N _ _ F1) (fl_cap _ _ F1) ltac:(intros; now rewrite (fl_enbr _ _ F1)))) as (h' & R & EL & F').
    unfold _RestoreInternalEdges, _RestoreHiddenEdges. gsimp.
    rewrite restore_hidden_ok.
    + rewrite R. cbn [bind]. eexists. split; [reflexivity|]. apply frame_geq.
      * destruct (frame_links_trans _ _ _ F1 F'). constructor; gsimp; auto.
      * constructor; gsimp; apply EL.
    + rewrite app_length. lia.
    + intros e He. apply in_rev in He. assert (In e (adj v)) by (rewrite E; simpl; rewrite in_app_iff; auto).
      pose proof (ch_range _ _ C _ _ H). unfold NIL. lia.
Qed.
Lemma hide_internal_short g adj v :
  chains g adj -> is_vertex g v -> (length (adj v) <= 1)%nat -> _HideInternalEdges g v = Ret (g, C_OK).
Proof.
  intros C Vv Hl. unfold _HideInternalEdges.
  rewrite get_first, bind_ret by (apply inV_true; unfold is_vertex, gp_VertexIndexBound in *; lia).
  rewrite get_last, bind_ret by (apply inV_true; unfold is_vertex, gp_VertexIndexBound in *; lia).
  rewrite (ch_first _ _ C v Vv), (ch_last _ _ C v Vv).
  destruct (adj v) as [|x [|y l]]; cbn [length hd last] in *; [|rewrite Z.eqb_refl; auto|lia].
  rewrite Z.eqb_refl. auto.
Qed.
