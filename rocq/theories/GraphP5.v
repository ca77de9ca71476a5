(** * GraphP5: queries, directions. *)
From Coq Require Import ZifyBool Permutation.
From Verif Require Import Base BaseP GraphRec GraphM GraphSpec GSimp LinkP GraphP GraphP2 GraphP3 GraphP4.

(** ** Walking an adjacency list *)
Fixpoint walks (nx : Z -> Z) (l : list Z) : Prop :=
  match l with
  | [] => True
  | e :: l' => nx e = hd NIL l' /\ walks nx l'
  end.

Lemma linked_walks nx pv l : forall p, linked nx pv p l NIL -> walks nx l.
Proof. induction l as [|e l IH]; simpl; intros p H; auto. destruct H as (_ & H1 & H2). eauto. Qed.

Lemma chains_walks g adj v : chains g adj -> walks (enext g) (adj v).
Proof.
  intros C. destruct (adj v) as [|e l] eqn:E; [exact I|]. rewrite <- E.
  eapply linked_walks. apply (ch_linked _ _ C).
  eapply (ch_isvertex _ _ _ e C). rewrite E. simpl; auto.
Qed.

Lemma NoDup_range_len lo hi l :
  NoDup l -> (forall x, In x l -> lo <= x < hi) -> (length l <= Z.to_nat (hi - lo))%nat.
Proof.
  intros N H. rewrite <- (zrange_length lo (Z.to_nat (hi - lo))).
  apply NoDup_incl_length; auto. intros x Hx. apply in_zrange. specialize (H x Hx). lia.
Qed.

Lemma adj_len g adj v : chains g adj -> (S (length (adj v)) <= efuel g)%nat.
Proof.
  intros C. unfold efuel.
  pose proof (NoDup_range_len 2 (gp_EdgeIndexBound g) (adj v) (ch_nodup _ _ C v) (ch_range _ _ C v)). lia.
Qed.

Lemma first_ok g adj v : chains g adj -> is_vertex g v -> gp_GetFirstArc g v = Ret (hd NIL (adj v)).
Proof. intros C Hv. rewrite get_first by (now apply inV_true). now rewrite (ch_first _ _ C v Hv). Qed.
Lemma last_ok g adj v : chains g adj -> is_vertex g v -> gp_GetLastArc g v = Ret (last (adj v) NIL).
Proof. intros C Hv. rewrite get_last by (now apply inV_true). now rewrite (ch_last _ _ C v Hv). Qed.

(** ** gp_GetNeighborEdgeRecord *)
Lemma nbr_rec_ok g v l : forall n,
  (length l < n)%nat -> walks (enext g) l -> (forall e, In e l -> 2 <= e < gp_EdgeIndexBound g) ->
  nbr_rec_loop n g v (hd NIL l) = Ret (hd NIL (filter (fun e => enbr g e =? v) l)).
Proof.
  induction l as [|e l IH]; intros n Hn W R; (destruct n as [|n]; [cbn [length] in Hn; lia|]); cbn [nbr_rec_loop hd].
  - reflexivity.
  - cbn [length] in Hn.
    assert (He : 2 <= e < gp_EdgeIndexBound g) by (apply R; simpl; auto).
    rewrite eqb_false_neq by (unfold NIL; lia).
    rewrite get_nbr by (apply inE_true; lia). rewrite bind_ret. cbn [filter].
    destruct (enbr g e =? v) eqn:E; [reflexivity|].
    rewrite get_next by (apply inE_true; lia). rewrite bind_ret.
    destruct W as [W1 W2]. rewrite W1. apply IH; auto; [lia|]. intros x Hx. apply R. simpl; auto.
Qed.

Lemma neighbor_rec_ok g adj u v :
  chains g adj -> is_vertex g u -> v <> NIL ->
  gp_GetNeighborEdgeRecord g u v = Ret (hd NIL (filter (fun e => enbr g e =? v) (adj u))).
Proof.
  intros C Hu Hv. unfold gp_GetNeighborEdgeRecord.
  rewrite eqb_false_neq by (unfold is_vertex, NIL in *; lia). rewrite eqb_false_neq by auto. cbn [orb].
  rewrite (first_ok _ _ _ C Hu), bind_ret.
  apply nbr_rec_ok; [exact (adj_len _ _ _ C)|apply chains_walks; auto|apply C].
Qed.

(** ** gp_IsNeighbor *)
Definition arc_to (g : graph) (v e : Z) : bool :=
  (enbr g e =? v) && negb (Z.land (eflags g e) DIR_MASK =? DIR_INONLY).

Lemma is_nbr_ok g v l : forall n,
  (length l < n)%nat -> walks (enext g) l -> (forall e, In e l -> 2 <= e < gp_EdgeIndexBound g) ->
  is_nbr_loop n g v (hd NIL l) = Ret (if existsb (arc_to g v) l then C_TRUE else C_FALSE).
Proof.
  induction l as [|e l IH]; intros n Hn W R; (destruct n as [|n]; [cbn [length] in Hn; lia|]); cbn [is_nbr_loop hd].
  - reflexivity.
  - cbn [length] in Hn.
    assert (He : 2 <= e < gp_EdgeIndexBound g) by (apply R; simpl; auto).
    rewrite eqb_false_neq by (unfold NIL; lia).
    rewrite get_nbr by (apply inE_true; lia). rewrite bind_ret.
    unfold gp_GetDirection. rewrite rd_eflags_ok by (apply inE_true; lia). rewrite !bind_ret.
    cbn [existsb]. change ((enbr g e =? v) && negb (Z.land (eflags g e) DIR_MASK =? DIR_INONLY)) with (arc_to g v e).
    destruct (arc_to g v e); [reflexivity|]. cbn [orb].
    rewrite get_next by (apply inE_true; lia). rewrite bind_ret.
    destruct W as [W1 W2]. rewrite W1. apply IH; auto; [lia|]. intros x Hx. apply R. simpl; auto.
Qed.

Lemma is_neighbor_ok g adj u v :
  chains g adj -> is_vertex g u ->
  gp_IsNeighbor g u v = Ret (if existsb (arc_to g v) (adj u) then C_TRUE else C_FALSE).
Proof.
  intros C Hu. unfold gp_IsNeighbor. rewrite (first_ok _ _ _ C Hu), bind_ret.
  apply is_nbr_ok; [exact (adj_len _ _ _ C)|apply chains_walks; auto|apply C].
Qed.

(** ** Degrees *)
Lemma degree_ok g skip l : forall n d,
  (length l < n)%nat -> walks (enext g) l -> (forall e, In e l -> 2 <= e < gp_EdgeIndexBound g) ->
  degree_loop n g skip (hd NIL l) d =
  Ret (d + Z.of_nat (length (filter (fun e => negb (Z.land (eflags g e) DIR_MASK =? skip)) l))).
Proof.
  induction l as [|e l IH]; intros n d Hn W R; (destruct n as [|n]; [cbn [length] in Hn; lia|]); cbn [degree_loop hd].
  - cbn [filter length]. now replace (d + Z.of_nat 0) with d by lia.
  - cbn [length] in Hn.
    assert (He : 2 <= e < gp_EdgeIndexBound g) by (apply R; simpl; auto).
    rewrite eqb_false_neq by (unfold NIL; lia).
    unfold gp_GetDirection. rewrite rd_eflags_ok by (apply inE_true; lia). rewrite !bind_ret.
    rewrite get_next by (apply inE_true; lia). rewrite bind_ret.
    destruct W as [W1 W2]. rewrite W1. rewrite IH; auto; [|lia|intros x Hx; apply R; simpl; auto].
    cbn [filter]. destruct (Z.land (eflags g e) DIR_MASK =? skip); cbn [negb]; auto.
    cbn [length]. f_equal. lia.
Qed.

Lemma land_mask_nonneg f : 0 <= Z.land f DIR_MASK.
Proof. apply Z.land_nonneg. right. unfold DIR_MASK; lia. Qed.

Lemma degrees_ok g adj v :
  chains g adj -> is_vertex g v ->
  gp_GetVertexDegree g v = Ret (Z.of_nat (length (adj v))) /\
  gp_GetVertexInDegree g v =
    Ret (Z.of_nat (length (filter (fun e => negb (Z.land (eflags g e) DIR_MASK =? DIR_OUTONLY)) (adj v)))) /\
  gp_GetVertexOutDegree g v =
    Ret (Z.of_nat (length (filter (fun e => negb (Z.land (eflags g e) DIR_MASK =? DIR_INONLY)) (adj v)))).
Proof.
  intros C Hv. unfold gp_GetVertexDegree, gp_GetVertexInDegree, gp_GetVertexOutDegree.
  rewrite !eqb_false_neq by (unfold is_vertex, NIL in *; lia).
  rewrite (first_ok _ _ _ C Hv), !bind_ret.
  assert (A := adj_len _ _ v C). pose proof (chains_walks _ _ v C) as W. pose proof (ch_range _ _ C v) as R.
  rewrite !degree_ok; auto; try lia.
  repeat split; auto. f_equal.
  replace (filter _ (adj v)) with (adj v); [lia|].
  clear. induction (adj v) as [|e l IH]; [reflexivity|]. cbn [filter].
  pose proof (land_mask_nonneg (eflags g e)).
  rewrite eqb_false_neq by lia. cbn [negb]. now rewrite <- IH.
Qed.

(** ** gp_SetDirection *)
Lemma set_direction_ok g e d :
  inE g e = true -> inE g (twin e) = true ->
  wp (gp_SetDirection g e d) (fun g' =>
    exists f, g' = set_eflags g f /\
    f e = (if d =? DIR_INONLY then Z.lor (eflags g e) DIR_INONLY
           else if d =? DIR_OUTONLY then Z.lor (eflags g e) DIR_OUTONLY
           else Z.ldiff (eflags g e) DIR_MASK) /\
    f (twin e) = (if d =? DIR_INONLY then Z.lor (eflags g (twin e)) DIR_OUTONLY
           else if d =? DIR_OUTONLY then Z.lor (eflags g (twin e)) DIR_INONLY
           else Z.ldiff (eflags g (twin e)) DIR_MASK) /\
    (forall x, x <> e -> x <> twin e -> f x = eflags g x)).
Proof.
  intros H1 H2. unfold gp_SetDirection. change (gp_GetTwinArc e) with (twin e).
  assert (Hne : twin e <> e) by apply twin_ne.
  assert (K : forall a b,
    wp (f <- rd_eflags g e ;; g <- wr_eflags g e (a f) ;; f <- rd_eflags g (twin e) ;; wr_eflags g (twin e) (b f))
       (fun g' => exists f, g' = set_eflags g f /\ f e = a (eflags g e) /\ f (twin e) = b (eflags g (twin e)) /\
          (forall x, x <> e -> x <> twin e -> f x = eflags g x))).
  { intros a b. rewrite rd_eflags_ok, bind_ret, wr_eflags_ok, bind_ret by auto.
    rewrite rd_eflags_ok by exact H2. rewrite bind_ret, wr_eflags_ok by exact H2. apply wp_ret. gsimp.
    eexists. split; [reflexivity|]. rewrite upd_other by auto. rewrite !upd_same. split; auto.
    rewrite upd_other by auto. split; auto.
    intros x X1 X2. now rewrite !upd_other by auto. }
  destruct (d =? DIR_INONLY); [apply (K (fun f => Z.lor f DIR_INONLY) (fun f => Z.lor f DIR_OUTONLY))|].
  destruct (d =? DIR_OUTONLY); [apply (K (fun f => Z.lor f DIR_OUTONLY) (fun f => Z.lor f DIR_INONLY))|].
  apply (K (fun f => Z.ldiff f (Z.lor DIR_INONLY DIR_OUTONLY)) (fun f => Z.ldiff f DIR_MASK)).
Qed.
