(** * ObsP3: the path tests and image vertices of the obstruction checks. *)
From Coq Require Import ZifyBool.
From Verif Require Import Base BaseP GraphRec GraphM GraphSpec GSimp LinkP GraphP GraphP2 GraphP3 GraphP5
  DFSM DFSSpec DFSP DFSP2 RandP2 TestM TestSpec OrbitP TestP TestP2 TestP3 TestP4 ObsSpec ObsP ObsP2.

Lemma zrange_S lo n : zrange lo (S n) = lo :: zrange (lo + 1) n.
Proof.
  unfold zrange. cbn [seq map]. f_equal; [lia|]. rewrite <- seq_shift, map_map. apply map_ext. intros; lia.
Qed.

Section Code.
Variables (g0 : graph) (adj : Z -> list Z).
Hypothesis R : rep g0 adj.
Hypothesis PE : primary_edges g0 adj.
Notation hv := (enbr g0).
Notation deg2 := (deg2 adj).
Notation thr := (thr g0 adj).
Notation nxt := (nxt g0 adj).
Notation proper := (proper g0 adj).
Notation internals := (internals g0).
Notation vm := (vertex_marks_only g0).

Lemma src_prim v e : In e (adj v) -> primary g0 v.
Proof. intros H. eapply PE; eauto. Qed.
Lemma head_prim v e : In e (adj v) -> primary g0 (hv e).
Proof. intros H. eapply nbr_prim; eauto. Qed.
Lemma vm_chains g : vm g -> chains g adj.
Proof. intros F. apply (rep_chains _ _ (vm_rep _ _ _ F R)). Qed.
Lemma vm_isv g v : vm g -> primary g0 v -> is_vertex g v.
Proof. intros F H. apply prim_is_vertex in H. unfold is_vertex in *. now rewrite (vm_N _ _ F). Qed.
Lemma vm_prim g v : vm g -> primary g0 v -> primary g v.
Proof. intros F H. unfold primary in *. now rewrite (vm_N _ _ F). Qed.
Lemma vm_arcE g v e : vm g -> In e (adj v) -> inE g e = true.
Proof. intros F H. exact (vm_inE g0 adj R g v e F H). Qed.

Lemma strict_deg2_ok g v : vm g -> primary g0 v -> strict_deg2 g v = Ret (Nat.eqb (length (adj v)) 2).
Proof.
  intros F Hv. pose proof (vm_chains g F) as C. pose proof (vm_isv g v F Hv) as Iv. unfold strict_deg2.
  rewrite (first_ok g adj v C Iv). cbn [bind].
  assert (NN : ~ In NIL (adj v)) by exact (rep_nonil _ _ _ R).
  pose proof (adj_nodup g0 adj R v) as ND.
  destruct (adj v) as [|a l] eqn:Ea; [reflexivity|]. cbn [hd]. rewrite eqb_false_neq by (intros ->; apply NN; now left).
  rewrite (last_ok g adj v C Iv), Ea. cbn [bind].
  assert (Il : In (last (a :: l) NIL) (a :: l)) by (apply last_in; discriminate).
  rewrite eqb_false_neq by (intros Q; rewrite Q in Il; auto).
  assert (Ia : In a (adj v)) by (rewrite Ea; now left).
  rewrite get_next by (eapply vm_arcE; eauto). cbn [bind]. f_equal.
  pose proof (chains_walks g adj v C) as W. rewrite Ea in W. destruct W as [-> _].
  destruct l as [|b l]; cbn [hd].
  - cbn [last length Nat.eqb]. apply eqb_false_neq. intros Q. apply NN. left; congruence.
  - destruct l as [|c l]; cbn [last length]; [now rewrite Z.eqb_refl|]. cbn [Nat.eqb]. apply eqb_false_neq. intros Q.
    apply NoDup_cons_iff in ND as [_ ND]. apply NoDup_cons_iff in ND as [N _]. apply N. rewrite Q.
    change (In (last (c :: l) NIL) (c :: l)). apply last_in. discriminate.
Qed.
Lemma path_next_ok g v e : vm g -> In e (adj v) -> deg2 (hv e) -> path_next g (hv e) e = Ret (nxt e).
Proof.
  intros F He D. pose proof (vm_chains g F) as C. pose proof (head_prim _ _ He) as Hv. pose proof (vm_isv g _ F Hv) as Iv.
  unfold path_next. rewrite (first_ok g adj _ C Iv). cbn [bind]. unfold ObsP.nxt. unfold ObsP.deg2 in D.
  destruct (adj (hv e)) as [|a [|b [|c l]]] eqn:Ea; try discriminate. cbn [hd]. unfold gp_GetTwinArc. fold (twin e).
  destruct (a =? twin e); auto. rewrite (last_ok g adj _ C Iv), Ea. reflexivity.
Qed.

Lemma try_path_ok g : vm g -> forall l e n w v, thr (e :: l) -> path g0 adj w (e :: l) v -> (length (e :: l) <= n)%nat ->
  try_path_loop n g e (hv e) = Ret v.
Proof.
  intros F. induction l as [|b l IH]; intros e n w v T [He P] Hn; (destruct n as [|n]; [cbn in Hn; lia|]); cbn [try_path_loop];
    rewrite strict_deg2_ok by (eauto using head_prim); cbn [bind]; apply thr_inv in T.
  - destruct T as [[_ D]|(_ & l' & Q & _)]; [|discriminate]. cbn in P. subst v. unfold ObsP.deg2 in D.
    now rewrite (proj2 (Nat.eqb_neq _ _) D).
  - destruct T as [[Q _]|(D & l' & Q & T)]; [discriminate|]. rewrite (proj2 (Nat.eqb_eq _ _) D). injection Q as -> ->.
    rewrite (path_next_ok g w e) by auto. cbn [bind].
    destruct (nxt_ok g0 adj R _ _ He D) as (N1 & _). rewrite get_nbr by (eapply vm_arcE; eauto). cbn [bind]. rewrite (vm_enbr _ _ F).
    apply (IH _ _ (hv e)); auto. cbn [length] in *. lia.
Qed.
Lemma mark_path_ok : forall l e n g w v, vm g -> thr (e :: l) -> path g0 adj w (e :: l) v -> (length (e :: l) <= n)%nat ->
  exists g', mark_path_loop n g e (hv e) = Ret g' /\ vm g' /\
    forall x, visited g' x = true <-> visited g x = true \/ In x (internals (e :: l)).
Proof.
  induction l as [|b l IH]; intros e n g w v F T [He P] Hn; (destruct n as [|n]; [cbn in Hn; lia|]); cbn [mark_path_loop];
    rewrite strict_deg2_ok by (eauto using head_prim); cbn [bind]; apply thr_inv in T.
  - destruct T as [[_ D]|(_ & l' & Q & _)]; [|discriminate]. unfold ObsP.deg2 in D.
    rewrite (proj2 (Nat.eqb_neq _ _) D). exists g. split; auto. split; auto. intros x. cbn. tauto.
  - destruct T as [[Q _]|(D & l' & Q & T)]; [discriminate|]. rewrite (proj2 (Nat.eqb_eq _ _) D). injection Q as -> ->.
    pose proof (head_prim _ _ He) as Hp. rewrite set_visited_ok by (now apply (vm_inV g0)). cbn [bind].
    assert (F' : vm (mark_v g (hv e) true)) by (eapply vm_trans; [exact F|apply vm_mark; now apply vm_prim]).
    rewrite (path_next_ok _ w e) by auto. cbn [bind].
    destruct (nxt_ok g0 adj R _ _ He D) as (N1 & _). rewrite get_nbr by (eapply vm_arcE; eauto). cbn [bind]. rewrite (vm_enbr _ _ F').
    destruct (IH (nxt e) n _ (hv e) v F' T) as (g' & E' & Fg' & V); auto; [cbn [length] in *; lia|].
    exists g'. split; auto. split; auto. intros x. rewrite V, visited_markv.
    change (internals (e :: nxt e :: l')) with (hv e :: internals (nxt e :: l')). cbn [In].
    destruct (Z.eqb_spec x (hv e)) as [->|Nx]; [tauto|]. split; [tauto|]. intros [|[H|]]; auto; congruence.
Qed.

(** u is joined to V by a thread *)
Definition vis_plus (g g' : graph) (l : list Z) : Prop := forall x, visited g' x = true <-> visited g x = true \/ In x (internals l).
Lemma test_path_loop_ok u V l : forall n g, vm g -> (length l < n)%nat -> walks (enext g0) l ->
  (forall a, In a l -> a <> NIL /\ exists q v, path g0 adj u (a :: q) v /\ thr (a :: q) /\ (length (a :: q) <= efuel g0)%nat) ->
  exists g' r, test_path_loop n g (hd NIL l) V = Ret (g', r) /\ vm g' /\
    ((r = C_TRUE /\ exists a q, In a l /\ path g0 adj u (a :: q) V /\ thr (a :: q) /\ vis_plus g g' (a :: q)) \/
     (r = C_FALSE /\ g' = g /\ forall a q, In a l -> path g0 adj u (a :: q) V -> ~ thr (a :: q))).
Proof.
  induction l as [|a l IH]; intros n g F Hn W Hl; (destruct n as [|n]; [cbn in Hn; lia|]); cbn [test_path_loop hd].
  - change (NIL =? NIL) with true. cbv iota. exists g, C_FALSE. split; [auto|]. split; [auto|]. right. split; [auto|]. split; [auto|]. intros a q [].
  - destruct (Hl a) as (Na & q & v & P & T & Len); [now left|]. rewrite eqb_false_neq by auto.
    unfold _TryPath. pose proof (proj1 P) as Ha. rewrite get_nbr by (eapply vm_arcE; eauto). cbn [bind]. rewrite (vm_enbr _ _ F).
    assert (Ef : efuel g = efuel g0) by (unfold efuel, gp_EdgeIndexBound; now rewrite (vm_cap _ _ F)).
    rewrite (try_path_ok g F q a (efuel g) u v) by (auto; lia). cbn [bind].
    destruct (Z.eqb_spec v V) as [->|Nv]; cbv iota.
    + change (C_TRUE =? C_OK) with true. cbv iota. unfold _MarkPath. rewrite get_nbr by (eapply vm_arcE; eauto). cbn [bind]. rewrite (vm_enbr _ _ F).
      destruct (mark_path_ok q a (efuel g) g u V F T P) as (g' & -> & F' & V'); [lia|]. cbn [bind].
      exists g', C_TRUE. split; auto. split; auto. left. split; auto. exists a, q. split; [now left|]. auto.
    + change (C_FALSE =? C_OK) with false. cbv iota. rewrite get_next by (eapply vm_arcE; eauto). cbn [bind].
      destruct W as [W1 W2]. rewrite (vm_enext _ _ F), W1.
      destruct (IH n g) as (g' & r & E & F' & H); auto; [cbn in Hn; lia|intros b Hb; apply Hl; now right|].
      exists g', r. split; auto. split; auto. destruct H as [(-> & b & q' & I & X)|(-> & -> & H)].
      * left. split; auto. exists b, q'. split; [now right|auto].
      * right. split; auto. split; auto. intros b q' [<-|Hb] P' T'; [|eapply H; eauto].
        apply Nv. pose proof (thr_det g0 adj _ _ _ T T'). subst q'. eapply path_det; eauto.
Qed.
Lemma test_path_ok0 u V g : vm g -> primary g0 u ->
  (forall a, In a (adj u) -> exists q v, path g0 adj u (a :: q) v /\ thr (a :: q) /\ (length (a :: q) <= efuel g0)%nat) ->
  exists g' r, _TestPath g u V = Ret (g', r) /\ vm g' /\
    ((r = C_TRUE /\ exists l, path g0 adj u l V /\ thr l /\ vis_plus g g' l) \/
     (r = C_FALSE /\ g' = g /\ forall l, path g0 adj u l V -> ~ thr l)).
Proof.
  intros F Hu Ht. unfold _TestPath. pose proof (vm_chains g F) as C. rewrite (first_ok g adj u C (vm_isv _ _ F Hu)). cbn [bind].
  destruct (test_path_loop_ok u V (adj u) (efuel g) g F) as (g' & r & E & F' & H).
  - apply (adj_len g adj u C).
  - apply (chains_walks g0 adj u). apply (rep_chains _ _ R).
  - intros a Ha. split; [intros ->; exact (rep_nonil _ _ _ R Ha)|auto].
  - exists g', r. split; auto. split; auto. destruct H as [(-> & a & q & I & P & T & V')|(-> & -> & H)].
    + left. split; auto. exists (a :: q). auto.
    + right. split; auto. split; auto. intros l P T. destruct l as [|a q]; [now destruct T|]. eapply H; eauto. apply P.
Qed.
Lemma test_path_ok u V g : vm g -> primary g0 u -> ~ deg2 u ->
  exists g' r, _TestPath g u V = Ret (g', r) /\ vm g' /\
    ((r = C_TRUE /\ exists l, proper u l V /\ vis_plus g g' l) \/ (r = C_FALSE /\ g' = g /\ forall l, ~ proper u l V)).
Proof.
  intros F Hu D. destruct (test_path_ok0 u V g F Hu) as (g' & r & E & F' & H).
  - intros a Ha. destruct (thread_exists g0 adj R u a D Ha) as (l & v & (P & T & _) & Len). exists l, v. split; auto. split; auto. lia.
  - exists g', r. split; auto. split; auto. destruct H as [(-> & l & P & T & V')|(-> & -> & H)].
    + left. split; auto. exists l. split; auto. split; auto.
    + right. split; auto. split; auto. intros l (P & T & _). eapply H; eauto.
Qed.

(** ** Arrays *)
Lemma a_rd_ok a i : 0 <= i < Z.of_nat (length a) -> a_rd a i = Ret (nth (Z.to_nat i) a 0).
Proof. intros H. unfold a_rd. apply guard_true. lia. Qed.
Lemma a_wr_ok a i x : 0 <= i < Z.of_nat (length a) -> a_wr a i x = Ret (list_set a (Z.to_nat i) x).
Proof. intros H. unfold a_wr. apply guard_true. lia. Qed.

(** ** A list of paths to be tested *)
Definition im (imgs : list Z) (i : Z) : Z := nth (Z.to_nat i) imgs 0.
Lemma test_pairs_ok imgs ps : forall g, vm g ->
  (forall i j, In (i, j) ps -> 0 <= i < Z.of_nat (length imgs) /\ 0 <= j < Z.of_nat (length imgs) /\ primary g0 (im imgs i) /\ ~ deg2 (im imgs i)) ->
  exists g' ok, test_pairs g imgs ps = Ret (g', ok) /\ vm g' /\
    (ok = true -> forall i j, In (i, j) ps -> exists l, proper (im imgs i) l (im imgs j) /\ forall x, In x (internals l) -> visited g' x = true) /\
    (ok = false -> exists i j, In (i, j) ps /\ forall l, ~ proper (im imgs i) l (im imgs j)) /\
    (forall x, visited g x = true -> visited g' x = true) /\
    (forall x, visited g' x = true -> visited g x = true \/ exists i j l, In (i, j) ps /\ proper (im imgs i) l (im imgs j) /\ In x (internals l)).
Proof.
  induction ps as [|(i, j) ps IH]; intros g F H; cbn [test_pairs].
  - exists g, true. split; auto. split; auto. split; [intros _ i j []|]. split; [discriminate|]. auto.
  - destruct (H i j) as (Hi & Hj & Pi & Di); [now left|]. rewrite !a_rd_ok by auto. cbn [bind].
    fold (im imgs i). fold (im imgs j). destruct (test_path_ok (im imgs i) (im imgs j) g F Pi Di) as (g1 & r & -> & F1 & X). cbn [bind].
    destruct X as [(-> & l & Pl & V1)|(-> & -> & X)].
    + change (negb (C_TRUE =? C_TRUE)) with false. cbv iota.
      destruct (IH g1 F1) as (g' & ok & E & F' & A & B & M & V); [intros; apply H; now right|].
      exists g', ok. split; auto. split; auto. split; [|split; [|split]].
      * intros Q i' j' [I|I]; [|auto]. injection I as <- <-. exists l. split; auto. intros x Hx. apply M. apply V1. auto.
      * intros Q. destruct (B Q) as (i' & j' & I & N). exists i', j'. split; [now right|auto].
      * intros x Hx. apply M, V1. auto.
      * intros x Hx. destruct (V x Hx) as [Y|(i' & j' & l' & I & Y)].
        -- apply V1 in Y as [Y|Y]; auto. right. exists i, j, l. split; [now left|auto].
        -- right. exists i', j', l'. split; [now right|auto].
    + change (negb (C_FALSE =? C_TRUE)) with true. cbv iota. exists g, false. split; auto. split; auto. split; [discriminate|].
      split; [intros _; exists i, j; split; [now left|auto]|]. auto.
Qed.

(** ** Counting *)
Definition vs : list Z := zrange 1 (Z.to_nat (gN g0)).
Lemma in_vs v : In v vs <-> primary g0 v.
Proof. unfold vs. rewrite in_zrange. pose proof (st_N _ _ (rep_storage _ _ R)). unfold primary. lia. Qed.
Lemma vs_nodup : NoDup vs.
Proof. apply NoDup_zrange. Qed.
Definition cnt (f : Z -> bool) : Z := Z.of_nat (length (filter f vs)).
Definition deg (v : Z) : Z := Z.of_nat (length (adj v)).
Lemma cnt_vs (f g : Z -> bool) l : (forall x, In x l -> f x = true -> g x = true) -> (length (filter f l) <= length (filter g l))%nat.
Proof.
  induction l as [|a l IH]; intros H; cbn [filter]; [auto|]. assert (K : forall x, In x l -> f x = true -> g x = true) by (intros; apply H; auto; now right).
  specialize (IH K). destruct (f a) eqn:Ef; [rewrite (H a) by (auto; now left); cbn; lia|]. destruct (g a); cbn; lia.
Qed.
Lemma cnt_same (f g : Z -> bool) l : (forall x, In x l -> f x = true -> g x = true) -> (length (filter f l) = length (filter g l))%nat ->
  forall x, In x l -> g x = true -> f x = true.
Proof.
  induction l as [|a l IH]; intros H E x Hx Gx; [destruct Hx|]. cbn [filter] in E.
  assert (K : forall x, In x l -> f x = true -> g x = true) by (intros; apply H; auto; now right).
  pose proof (cnt_vs f g l K). destruct (f a) eqn:Ef.
  - rewrite (H a) in E by (auto; now left). cbn in E. destruct Hx as [<-|Hx]; auto.
  - destruct (g a) eqn:Eg; [cbn in E; lia|]. destruct Hx as [<-|Hx]; [congruence|]. auto.
Qed.
Lemma count_visited_ok g d : vm g -> count_visited g d = Ret (d - cnt (visited g)).
Proof.
  intros F. unfold count_visited. rewrite (vm_N _ _ F). unfold cnt, vs.
  assert (K : forall n lo d, 1 <= lo -> lo + Z.of_nat n <= gN g0 + 1 ->
    for_up n lo (fun v d => vis <- gp_GetVertexVisited g v ;; Ret (if negb (vis =? 0) then d - 1 else d)) d =
    Ret (d - Z.of_nat (length (filter (visited g) (zrange lo n))))).
  { induction n as [|n IH]; intros lo d' H1 H2; cbn [for_up].
    - f_equal. cbn. lia.
    - rewrite get_visited by (apply (vm_inV g0); auto; unfold primary; lia). cbn [bind]. fold (visited g lo).
      rewrite IH by lia. f_equal. rewrite zrange_S. cbn [filter]. destruct (visited g lo); cbn [length]; lia. }
  apply K; [lia|]. pose proof (st_N _ _ (rep_storage _ _ R)). lia.
Qed.

Definition big (v : Z) : bool := deg v >? 2.
Lemma list_set_nth (l : list Z) i x k : nth k (list_set l i x) 0 = if Nat.eqb k i && (i <? length l)%nat then x else nth k l 0.
Proof.
  revert i k. induction l as [|a l IH]; intros [|i] [|k]; cbn [list_set nth length]; auto.
  - destruct (Nat.eqb _ _); reflexivity.
  - rewrite IH. reflexivity.
Qed.
Lemma list_set_len (l : list Z) i x : length (list_set l i x) = length l.
Proof. revert i. induction l as [|a l IH]; intros [|i]; cbn; auto. Qed.
Lemma list_set_app (l1 : list Z) a l2 x : list_set (l1 ++ a :: l2) (length l1) x = l1 ++ x :: l2.
Proof. induction l1 as [|b l1 IH]; cbn; congruence. Qed.

Lemma image_loop_ok g mD mN : vm g -> 0 <= mD -> forall n lo ds pre pad, 1 <= lo -> lo + Z.of_nat n <= gN g0 + 1 ->
  length ds = Z.to_nat (mD + 1) -> Z.of_nat (length pre + length pad) = mN -> (forall x, In x pad -> x = NIL) ->
  exists r, image_loop n g mD mN lo ds (pre ++ pad) (Z.of_nat (length pre)) = Ret r /\
    match r with
    | None => (exists v, In v (zrange lo n) /\ (deg v = 1 \/ deg v > mD)) \/ mN < Z.of_nat (length pre + length (filter big (zrange lo n)))
    | Some (ds', imgs) =>
      (forall v, In v (zrange lo n) -> deg v <> 1 /\ deg v <= mD) /\ length ds' = length ds /\
      (forall d, 0 <= d <= mD -> nth (Z.to_nat d) ds' 0 = nth (Z.to_nat d) ds 0 + Z.of_nat (length (filter (fun v => deg v =? d) (zrange lo n)))) /\
      exists pad', imgs = pre ++ filter big (zrange lo n) ++ pad' /\ Z.of_nat (length imgs) = mN
    end.
Proof.
  intros F HmD. induction n as [|n IH]; intros lo ds pre pad H1 H2 Ld Lp Hp; cbn [image_loop].
  - eexists; split; [reflexivity|]. cbn beta iota. cbn [zrange filter]. split; [intros v []|]. split; auto. split; [intros; cbn; lia|].
    exists pad. split; auto. rewrite app_length. lia.
  - assert (Pl : primary g0 lo) by (unfold primary; lia).
    rewrite (proj1 (degrees_ok g adj lo (vm_chains g F) (vm_isv g lo F Pl))). cbn [bind]. fold (deg lo).
    rewrite zrange_S.
    destruct (Z.eqb_spec (deg lo) 1) as [E1|E1].
    { eexists; split; [reflexivity|]. cbn beta iota. left. exists lo. split; [now left|auto]. }
    destruct (Z.gtb_spec (deg lo) mD) as [E2|E2].
    { eexists; split; [reflexivity|]. cbn beta iota. left. exists lo. split; [now left|right; lia]. }
    assert (0 <= deg lo) by (unfold deg; lia).
    rewrite a_rd_ok by lia. cbn [bind]. rewrite a_wr_ok by lia. cbn [bind]. cbn [filter]. change (big lo) with (deg lo >? 2).
    assert (DS : forall d k, 0 <= d <= mD -> nth (Z.to_nat d) (list_set ds (Z.to_nat (deg lo)) (nth (Z.to_nat (deg lo)) ds 0 + 1)) 0 + k =
       nth (Z.to_nat d) ds 0 + (if deg lo =? d then 1 + k else k)).
    { intros d k Hd. rewrite list_set_nth. destruct (Z.eqb_spec (deg lo) d) as [->|Nd].
      - rewrite Nat.eqb_refl. replace (Z.to_nat d <? length ds)%nat with true by (symmetry; apply Nat.ltb_lt; lia). cbn [andb]. lia.
      - rewrite (proj2 (Nat.eqb_neq _ _)) by lia. cbn [andb]. lia. }
    destruct (Z.gtb_spec (deg lo) 2) as [E3|E3].
    + rewrite andb_true_r. destruct (Z.ltb_spec (Z.of_nat (length pre)) mN) as [E4|E4].
      * destruct pad as [|p pad]; [cbn in Lp; lia|]. rewrite a_wr_ok by (rewrite app_length; cbn; lia). cbn [bind].
        rewrite Nat2Z.id, list_set_app.
        destruct (IH (lo + 1) (list_set ds (Z.to_nat (deg lo)) (nth (Z.to_nat (deg lo)) ds 0 + 1)) (pre ++ [lo]) pad) as (r & E & Hr); try lia.
        { now rewrite list_set_len. }
        { rewrite app_length. cbn in *. lia. }
        { intros x Hx. apply Hp. now right. }
        rewrite <- app_assoc in E. cbn [app] in E. rewrite app_length in E. cbn [length] in E.
        replace (Z.of_nat (length pre) + 1) with (Z.of_nat (length pre + 1)) by lia.
        exists r. split; [exact E|]. destruct r as [[ds' imgs]|].
        -- destruct Hr as (A & B & D & pad' & Ei & Li). split; [intros v [<-|Hv]; auto|]. split; [rewrite B; apply list_set_len|]. split.
           { intros d Hd. rewrite D by auto. rewrite DS by auto. destruct (deg lo =? d); cbn [length]; lia. }
           exists pad'. split; auto. rewrite Ei, <- app_assoc. reflexivity.
        -- destruct Hr as [(v & Hv & X)|X]; [left; exists v; split; [now right|auto]|right]. rewrite app_length in X. cbn [length] in *. lia.
      * eexists; split; [reflexivity|]. cbn beta iota. right. cbn [length]. lia.
    + rewrite andb_false_r.
      destruct (IH (lo + 1) (list_set ds (Z.to_nat (deg lo)) (nth (Z.to_nat (deg lo)) ds 0 + 1)) pre pad) as (r & E & Hr); try lia; auto.
      { now rewrite list_set_len. }
      exists r. split; [exact E|]. destruct r as [[ds' imgs]|].
      * destruct Hr as (A & B & D & pad' & Ei & Li). split; [intros v [<-|Hv]; auto|]. split; [rewrite B; apply list_set_len|]. split.
        { intros d Hd. rewrite D by auto. rewrite DS by auto. destruct (deg lo =? d); cbn [length]; lia. }
        exists pad'. split; auto.
      * destruct Hr as [(v & Hv & X)|X]; [left; exists v; split; [now right|auto]|right; auto].
Qed.

Lemma images_ok g mD mN : vm g -> 0 <= mD -> 0 <= mN ->
  exists r, _getImageVertices g mD mN = Ret r /\
    match r with
    | None => (exists v, primary g0 v /\ (deg v = 1 \/ deg v > mD)) \/ mN < cnt big
    | Some (ds, imgs) =>
      (forall v, primary g0 v -> deg v <> 1 /\ deg v <= mD) /\ length ds = Z.to_nat (mD + 1) /\
      (forall d, 0 <= d <= mD -> nth (Z.to_nat d) ds 0 = cnt (fun v => deg v =? d)) /\
      exists pad, imgs = filter big vs ++ pad /\ Z.of_nat (length imgs) = mN
    end.
Proof.
  intros F H1 H2. unfold _getImageVertices. rewrite (vm_N _ _ F). pose proof (st_N _ _ (rep_storage _ _ R)).
  destruct (image_loop_ok g mD mN F H1 (Z.to_nat (gN g0)) 1 (repeat 0 (Z.to_nat (mD + 1))) [] (repeat NIL (Z.to_nat mN))) as (r & E & Hr); try lia.
  { apply repeat_length. } { rewrite repeat_length. cbn; lia. } { intros x Hx. eapply repeat_spec; eauto. }
  exists r. split; [exact E|]. fold vs in Hr. destruct r as [[ds imgs]|].
  - destruct Hr as (A & B & D & pad & Ei & Li). split; [intros v Hv; apply A; now apply in_vs|]. split; [rewrite B; apply repeat_length|]. split.
    + intros d Hd. rewrite D by auto. rewrite nth_repeat. unfold cnt. lia.
    + exists pad. auto.
  - destruct Hr as [(v & Hv & X)|X]; [left; exists v; split; [now apply in_vs|auto]|right; auto].
Qed.
End Code.
