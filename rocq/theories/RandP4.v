(** * RandP4: proofs about gp_CreateRandomGraphEx as a whole. *)
From Coq Require Import ZifyBool.
From Verif Require Import Base BaseP GraphRec GraphM GraphSpec GSimp LinkP GraphP GraphP2 GraphP3 GraphP4 GraphP5 MoveP DFSSpec DFSP RandM RandSpec RandP RandP2 RandP3.

Section Ex.
Variable g0 : graph.
Notation N := (gN g0).

Lemma tri_nbr g adj dep done u v : tri g0 g adj dep done -> 1 <= u <= N ->
  gp_IsNeighbor g u v = Ret (if adjb g adj u v then C_TRUE else C_FALSE).
Proof.
  intros T Hu. rewrite (is_neighbor_ok g adj).
  2: apply T.
  2: { unfold is_vertex. rewrite (t_N _ _ _ _ _ T). lia. }
  f_equal. replace (existsb (arc_to g v) (adj u)) with (adjb g adj u v); [auto|].
  unfold adjb. assert (H : forall e, In e (adj u) -> Z.land (eflags g e) DIR_MASK =? DIR_INONLY = false).
  { intros e He. destruct (t_flags _ _ _ _ _ T _ _ He) as [->|[->| ->]]; reflexivity. }
  induction (adj u) as [|e l IH]; [auto|]. cbn [existsb].
  rewrite IH by (intros; apply H; simpl; auto). f_equal. unfold arc_to. rewrite (H e) by (simpl; auto).
  cbn [negb]. now rewrite andb_true_r.
Qed.

Lemma tri_add0 g adj dep done u v : tri g0 g adj dep done -> 1 <= u <= N -> 1 <= v <= N -> gM g < gCap g0 / 2 ->
  exists g' adj', gp_AddEdge g u 0 v 0 = Ret (g', C_OK) /\ tri g0 g' adj' dep done /\ gM g' = gM g + 1.
Proof.
  intros T Hu Hv L. pose proof (t_rep _ _ _ _ _ T) as R.
  assert (Pu : primary g u) by (unfold primary; rewrite (t_N _ _ _ _ _ T); lia).
  assert (Pv : primary g v) by (unfold primary; rewrite (t_N _ _ _ _ _ T); lia).
  destruct (add_edge_in g adj u 0 v 0 R (prim_vertex _ _ Pu) (prim_vertex _ _ Pv)) as (g' & a & E & A); try (left; reflexivity).
  { rewrite (t_cap _ _ _ _ _ T). auto. }
  exists g', (adj_insert adj u NIL 0 v NIL 0 a). split; [auto|]. split; [exact (tri_add _ _ _ _ _ _ _ _ _ _ T Pu Pv A)|].
  apply (ad_frame _ _ _ _ _ _ _ A).
Qed.

Definition more_post (g : graph) (M : Z) (x : graph * Z) : Prop :=
  snd x = C_OK /\ exists adj dep done, tri g0 (fst x) adj dep done /\ gM (fst x) = Z.max (gM g) M.

Lemma more_pc rnd M : stream_ok rnd -> 1 <= N < INT_MAX -> M <= gCap g0 / 2 -> forall n k g adj dep done,
  tri g0 g adj dep done -> pc (more_edges n rnd k g M) (more_post g M).
Proof.
  intros St HN HM. induction n as [|n IH]; intros k g adj dep done T; cbn [more_edges]; [exact Logic.I|].
  destruct (gM g <? M) eqn:E.
  2: { cbn [pc]. split; [auto|]. exists adj, dep, done. cbn [fst]. split; [auto|lia]. }
  rewrite (t_N _ _ _ _ _ T). rewrite !random_ok, !bind_ret by (auto; lia).
  pose proof (pick_range (rnd k) 1 N ltac:(lia)). pose proof (pick_range (rnd (S k)) 1 N ltac:(lia)).
  set (u := pick (rnd k) 1 N) in *. set (v := pick (rnd (S k)) 1 N) in *.
  destruct (Z.eqb_spec u v) as [Huv|Huv]; cbn [negb]; [eapply IH; eauto|].
  rewrite (tri_nbr g adj dep done u v T) by lia. rewrite bind_ret.
  destruct (adjb g adj u v); cbn [C_TRUE C_FALSE Z.eqb]; [eapply IH; eauto|].
  destruct (tri_add0 g adj dep done u v T) as (g' & adj' & E' & T' & M'); try lia.
  rewrite E', bind_ret. cbn [negb C_OK Z.eqb Pos.eqb].
  eapply pc_mono; [eapply IH; eauto|]. intros x (X1 & a & d & o & X2 & X3). split; [auto|]. exists a, d, o. split; [auto|lia].
Qed.

Lemma more_edges_more rnd : forall n n' k g M r, (n <= n')%nat -> more_edges n rnd k g M = Ret r -> more_edges n' rnd k g M = Ret r.
Proof.
  induction n as [|n IH]; intros n' k g M r Hn H; [discriminate|]. destruct n' as [|n']; [lia|].
  cbn [more_edges] in *. destruct (gM g <? M); [|auto].
  destruct (_GetRandomNumber (rnd k) 1 _) as [u| |]; cbn [bind] in *; try discriminate.
  destruct (_GetRandomNumber (rnd (S k)) 1 _) as [v| |]; cbn [bind] in *; try discriminate.
  destruct (negb (u =? v)); [|apply IH; auto; lia].
  destruct (gp_IsNeighbor g u v) as [b| |]; cbn [bind] in *; try discriminate.
  destruct (b =? 0); [|apply IH; auto; lia].
  destruct (gp_AddEdge g u 0 v 0) as [[g' s]| |]; cbn [bind] in *; try discriminate.
  destruct (negb (s =? C_OK)); [auto|apply IH; auto; lia].
Qed.

Lemma more_term rnd s M : stream_ok rnd -> 1 <= N < INT_MAX -> M <= gCap g0 / 2 -> M <= N * (N - 1) / 2 ->
  fair_ex N s rnd -> forall d j g adj dep done,
  tri g0 g adj dep done -> M - gM g <= Z.of_nat d -> exists n r, more_edges n rnd (s + 2 * j) g M = Ret r.
Proof.
  intros St HN HM HM2 Fr. induction d as [|d IH]; intros j g adj dep done T Hd.
  - exists 1%nat. cbn [more_edges]. replace (gM g <? M) with false by lia. eauto.
  - destruct (Z_lt_le_dec (gM g) M) as [L|L].
    2: { exists 1%nat. cbn [more_edges]. replace (gM g <? M) with false by lia. eauto. }
    destruct (missing_pair g adj (t_rep _ _ _ _ _ T)) as (u & v & Hu & Hv & NA); [rewrite (t_N _ _ _ _ _ T); lia|].
    rewrite (t_N _ _ _ _ _ T) in Hv.
    destruct (Fr u v ltac:(lia) ltac:(lia) j) as (i & Hi & P1 & P2).
    remember (i - j)%nat as t eqn:Et. revert j Hi Et.
    (* one round of the loop either leaves the graph alone or adds an edge *)
    assert (Round : forall j, exists b, 
       (b = true /\ (forall n, more_edges (S n) rnd (s + 2 * j) g M = more_edges n rnd (s + 2 * S j) g M) /\
          ~ (pick (rnd (s + 2 * j)%nat) 1 N = u /\ pick (rnd (s + 2 * j + 1)%nat) 1 N = v)) \/
       (b = false /\ exists g' adj', tri g0 g' adj' dep done /\ gM g' = gM g + 1 /\
          forall n, more_edges (S n) rnd (s + 2 * j) g M = more_edges n rnd (s + 2 * S j) g' M)).
    { intros j. set (u1 := pick (rnd (s + 2 * j)%nat) 1 N). set (v1 := pick (rnd (S (s + 2 * j))) 1 N).
      replace (s + 2 * j + 1)%nat with (S (s + 2 * j)) by lia. fold v1.
      pose proof (pick_range (rnd (s + 2 * j)%nat) 1 N ltac:(lia)) as R1. fold u1 in R1.
      pose proof (pick_range (rnd (S (s + 2 * j))) 1 N ltac:(lia)) as R2. fold v1 in R2.
      assert (St1 : forall n, more_edges (S n) rnd (s + 2 * j) g M =
          if negb (u1 =? v1) then
            (nb <- Ret (if adjb g adj u1 v1 then C_TRUE else C_FALSE) ;;
             if nb =? 0 then '(g, r) <- gp_AddEdge g u1 0 v1 0 ;;
                if negb (r =? C_OK) then Ret (g, C_NOTOK) else more_edges n rnd (s + 2 * S j) g M
             else more_edges n rnd (s + 2 * S j) g M)
          else more_edges n rnd (s + 2 * S j) g M).
      { intros n. cbn [more_edges]. replace (gM g <? M) with true by lia. rewrite (t_N _ _ _ _ _ T).
        rewrite !random_ok, !bind_ret by (auto; lia). fold u1. fold v1.
        rewrite (tri_nbr g adj dep done u1 v1 T) by lia. replace (S (S (s + 2 * j)))%nat with (s + 2 * S j)%nat by lia. reflexivity. }
      destruct (Z.eqb_spec u1 v1) as [Q|Q]; cbn [negb] in St1.
      - exists true. left. split; [auto|]. split; [auto|]. lia.
      - setoid_rewrite bind_ret in St1. destruct (adjb g adj u1 v1) eqn:EA; cbn [C_TRUE C_FALSE Z.eqb] in St1.
        + exists true. left. split; [auto|]. split; [auto|]. intros [X Y]. rewrite X, Y in EA. apply NA, adjb_spec, EA.
        + destruct (tri_add0 g adj dep done u1 v1 T) as (g' & adj' & E' & T' & M'); try lia.
          exists false. right. split; [auto|]. exists g', adj'. split; [auto|]. split; [auto|].
          intros n. rewrite St1, E', bind_ret. reflexivity. }
    induction t as [|t IHt]; intros j Hi Et;
      destruct (Round j) as [b [(_ & Rd & NP)|(_ & g' & adj' & T' & M' & Rd)]].
    + exfalso. apply NP. assert (i = j) by lia. subst i. auto.
    + destruct (IH (S j) g' adj' dep done T' ltac:(lia)) as (n & r & En). exists (S n), r. now rewrite Rd.
    + destruct (IHt (S j) ltac:(lia) ltac:(lia)) as (n & r & En). exists (S n), r. now rewrite Rd.
    + destruct (IH (S j) g' adj' dep done T' ltac:(lia)) as (n & r & En). exists (S n), r. now rewrite Rd.
Qed.

(** ** Putting types, visited flags and parents back *)
Lemma clear_edges_ok g n : 0 <= gCap g -> Z.of_nat n <= gp_EdgeIndexBound g ->
  wp (for_up n 0 (fun e g => g <- gp_ClearEdgeType g e ;; gp_ClearEdgeVisited g e) g)
     (fun g' => exists f, g' = set_eflags g f /\
        forall x, f x = if (0 <=? x) && (x <? Z.of_nat n) then Z.ldiff (Z.ldiff (eflags g x) 14) 1 else eflags g x).
Proof.
  intros HC Hn.
  eapply wp_mono; [apply (for_up_inv (fun i g' => exists f, g' = set_eflags g f /\
        forall x, f x = if (0 <=? x) && (x <? i) then Z.ldiff (Z.ldiff (eflags g x) 14) 1 else eflags g x))|].
  - exists (eflags g). split; [destruct g; reflexivity|]. intros x. replace (_ && _) with false by lia. auto.
  - intros k h Hk (f & -> & Hf). unfold gp_ClearEdgeType, gp_ClearEdgeVisited.
    assert (I1 : forall f', inE (set_eflags g f') k = true) by (intros f'; apply inE_true; unfold gp_EdgeIndexBound in *; gsimp; lia).
    rewrite rd_eflags_ok, bind_ret by auto. rewrite wr_eflags_ok, bind_ret by auto. gsimp.
    change (set_eflags (set_eflags g f) ?x) with (set_eflags g x).
    rewrite rd_eflags_ok, bind_ret by auto. rewrite wr_eflags_ok by auto. gsimp. apply wp_ret.
    eexists. split; [reflexivity|]. intros x. rewrite upd_same. unfold upd. destruct (Z.eqb_spec x k) as [->|Hx].
    + rewrite Hf. replace (_ && _) with false by lia. replace (_ && _) with true by lia. reflexivity.
    + rewrite Hf. destruct ((0 <=? x) && (x <? k)) eqn:E1, ((0 <=? x) && (x <? k + 1)) eqn:E2; auto; lia.
  - intros h (f & -> & Hf). exists f. split; auto.
Qed.

Lemma clear_parents_ok g n : Z.of_nat n <= gN g ->
  wp (for_up n 1 (fun v g => gp_SetVertexParent g v NIL) g)
     (fun g' => exists f, g' = set_gVI g (set_viParent (gVI g) f) /\ forall x, 1 <= x <= Z.of_nat n -> f x = NIL).
Proof.
  intros Hn.
  eapply wp_mono; [apply (for_up_inv (fun i g' => exists f, g' = set_gVI g (set_viParent (gVI g) f) /\
       forall x, 1 <= x < i -> f x = NIL))|].
  - exists (viParent (gVI g)). split; [destruct g as [? ? ? ? ? ? ? ? ? ? ? ? ? ? ? ? ? []]; reflexivity|]. intros; lia.
  - intros k h Hk (f & -> & Hf). unfold gp_SetVertexParent. rewrite guard_true by (unfold inVI, gp_PrimaryVertexIndexBound; gsimp; lia).
    apply wp_ret. exists (upd f k NIL). split; [reflexivity|]. intros x Hx. unfold upd. destruct (Z.eqb_spec x k); [auto|]. apply Hf. lia.
  - intros h (f & -> & Hf). exists f. split; [auto|]. intros x Hx. apply Hf. lia.
Qed.

(** What the function leaves behind when it says OK. *)
Record ex_graph (g : graph) (adj : Z -> list Z) : Prop := {
  ex_rep : rep g adj; ex_N : gN g = N; ex_cap : gCap g = gCap g0;
  ex_prim : primary_edges g adj; ex_conn : all_connected g adj;
  ex_flags : forall e, 2 <= e < gp_EdgeIndexBound g -> eflags g e = 0;
  ex_par : forall v, primary g v -> par g v = NIL }.

Definition cleared (g : graph) : res (graph * Z) :=
  g <- for_up (Z.to_nat (gp_EdgeInUseIndexBound g)) 0 (fun e g => g <- gp_ClearEdgeType g e ;; gp_ClearEdgeVisited g e) g ;;
  g <- for_up (Z.to_nat N) 1 (fun v g => gp_SetVertexParent g v NIL) g ;;
  Ret (g, C_OK).
Lemma cleared_ok g adj dep done : 1 <= N -> tri g0 g adj dep done ->
  wp (cleared g) (fun x => snd x = C_OK /\ ex_graph (fst x) adj /\ gM (fst x) = gM g).
Proof.
  intros HN T. pose proof (t_rep _ _ _ _ _ T) as R. pose proof (rep_storage _ _ R) as S.
  pose proof (st_cap _ _ S) as Hc. pose proof (st_M _ _ S) as HM.
  unfold cleared. apply wp_bind. eapply wp_mono; [apply clear_edges_ok|].
  - unfold gp_EdgeInUseIndexBound, gp_EdgeIndexBound in Hc. lia.
  - unfold gp_EdgeInUseIndexBound in *. lia.
  - intros g1 (f & -> & Hf). apply wp_bind. eapply wp_mono; [apply clear_parents_ok|].
    + gsimp. rewrite (t_N _ _ _ _ _ T). lia.
    + intros g2 (fp & -> & Hp). apply wp_ret. cbn [fst snd]. split; [auto|]. split; [|reflexivity].
      assert (R2 : rep (set_gVI (set_eflags g f) (set_viParent (gVI (set_eflags g f)) fp)) adj) by (apply rep_congr with g; auto).
      assert (CN : forall w, 1 <= w <= N -> connected (set_gVI (set_eflags g f) (set_viParent (gVI (set_eflags g f)) fp)) adj 1 w).
      { intros w Hw. apply connected_same with g adj; auto. apply T. auto. }
      constructor.
      * auto.
      * gsimp. apply T.
      * gsimp. apply T.
      * exact (t_prim _ _ _ _ _ T).
      * intros u v Hu Hv. unfold primary in Hu, Hv. gsimp_in Hu. gsimp_in Hv. rewrite (t_N _ _ _ _ _ T) in Hu, Hv.
        apply connected_trans with 1; [apply connected_sym; auto|auto].
      * intros e He. gsimp. rewrite Hf. unfold gp_EdgeIndexBound in He. gsimp_in He.
        assert (Z0 : (forall w, ~ In e (adj w)) -> eflags g e = 0) by (intros NI; apply (t_free _ _ _ _ _ T); auto).
        assert (X : eflags g e = 0 \/ eflags g e = 4 \/ eflags g e = 5).
        { destruct (in_dec Z.eq_dec e (adj (enbr g (twin e)))) as [I|I].
          - eapply t_flags; eauto.
          - left. apply Z0. intros w Hw. apply I. destruct (rep_twins _ _ R _ _ Hw) as [-> _]. auto. }
        destruct ((0 <=? e) && (e <? _)) eqn:EE.
        -- destruct X as [->|[->| ->]]; reflexivity.
        -- apply Z0. intros w Hw. pose proof (st_used _ _ S _ _ Hw). lia.
      * intros v Hv. unfold par. gsimp. cbn [viParent set_viParent]. apply Hp. unfold primary in Hv. gsimp_in Hv.
        rewrite (t_N _ _ _ _ _ T) in Hv. lia.
Qed.

(** ** gp_CreateRandomGraphEx *)
Definition asked (m : Z) : Z := Z.min m (gCap g0 / 2).

Definition ex_post (m : Z) (x : graph * Z) : Prop :=
  (snd x = C_OK /\ (exists adj, ex_graph (fst x) adj) /\ gM (fst x) >= N - 1 /\ gM (fst x) >= asked m /\
   gM (fst x) <= Z.max (Z.max (N - 1) (asked m)) (3 * N - 6) /\
   (asked m <= N - 1 -> gM (fst x) = N - 1) /\
   (3 * N - 6 <= asked m -> gM (fst x) = Z.max (N - 1) (asked m))) \/
  (snd x = C_NOTOK /\ (exists adj, rep (fst x) adj) /\ N - 1 < asked m /\ gM (fst x) = gCap g0 / 2 /\ gCap g0 / 2 < 3 * N - 6).

Lemma triangulate_more : forall n n' g root last v M r, (n <= n')%nat -> triangulate n g root last v M = Ret r -> triangulate n' g root last v M = Ret r.
Proof.
  induction n as [|n IH]; intros n' g root last v M r Hn H; [discriminate|]. destruct n' as [|n']; [lia|].
  cbn [triangulate] in *.
  repeat match goal with
  | H : (if ?b then _ else _) = Ret _ |- _ => destruct b
  | H : bind ?m _ = Ret _ |- _ => destruct m; cbn [bind] in H |- *; try discriminate
  | H : (let '(_, _) := ?p in _) = Ret _ |- _ => destruct p
  end; auto; apply IH; auto; lia.
Qed.

(** Everything up to the loop that adds the remaining random edges. *)
Lemma ex_unfold rnd m fuel : empty_graph g0 -> stream_ok rnd -> 2 <= N -> 3 * N <= INT_MAX -> N - 1 <= gCap g0 / 2 ->
  N + 1 <= Z.of_nat fuel ->
  (exists g1, (forall fuel', (fuel <= fuel')%nat -> gp_CreateRandomGraphEx fuel' rnd g0 m = Ret (g1, C_NOTOK)) /\ (exists adj, rep g1 adj) /\ N - 1 < asked m /\
     gM g1 = gCap g0 / 2 /\ gCap g0 / 2 < 3 * N - 6) \/
  (exists g1 adj dep done, tri g0 g1 adj dep done /\ N - 1 <= gM g1 <= Z.max (N - 1) (3 * N - 6) /\
     (asked m <= N - 1 -> gM g1 = N - 1) /\
     (forall fuel', (fuel <= fuel')%nat -> gp_CreateRandomGraphEx fuel' rnd g0 m =
      '(g, r) <- more_edges fuel' rnd (Z.to_nat (N - 1)) g1 (asked m) ;;
      if negb (r =? C_OK) then Ret (g, C_NOTOK) else cleared g)).
Proof.
  intros Eg St H2 H3 Hc Hf. pose proof (empty_M _ (eg_rep _ Eg)) as M0.
  destruct (typed_tree_ok rnd g0 St ltac:(unfold INT_MAX in *; lia) Hc (Z.to_nat (N - 1)) 0 g0 no_adj 2) as (g1 & adj1 & E1 & T1); try lia.
  { constructor.
    - apply tree_inv_start; [apply Eg|auto].
    - intros ? ? [].
    - intros e He _. apply Eg. auto.
    - intros ? ? ? []. }
  pose proof (tri_start g0 g1 adj1 Eg H2 T1) as T2. pose proof (ti_M _ _ _ _ (tt_tree _ _ _ _ T1)) as M1.
  set (M := if asked m <=? 3 * N - 6 then asked m else 3 * N - 6).
  assert (U : forall fuel', gp_CreateRandomGraphEx fuel' rnd g0 m =
    '(g, v) <- _getUnprocessedChild g1 1 ;;
    '(g, r) <- triangulate fuel' g 1 v v M ;;
    if negb (r =? C_OK) then Ret (g, C_NOTOK)
    else '(g, r) <- more_edges fuel' rnd (Z.to_nat (N - 1)) g (asked m) ;;
         if negb (r =? C_OK) then Ret (g, C_NOTOK) else cleared g).
  { intros fuel'. unfold gp_CreateRandomGraphEx. cbv zeta.
  replace (if m >? gCap g0 / 2 then gCap g0 / 2 else m) with (asked m) by (unfold asked; destruct (m >? gCap g0 / 2) eqn:?; lia).
  rewrite E1, bind_ret. cbn [negb C_OK Z.eqb Pos.eqb Nat.add]. rewrite guard_true by (unfold int_ok, INT_MAX in *; lia).
    reflexivity. }
  (* the first child of the root *)
  destruct (child_ok g0 g1 adj1 _ _ 1 T2 ltac:(lia) (or_introl eq_refl)) as [EC|(g2 & c & adj2 & EC & T3 & C1 & C2 & C3 & C4 & C5)].
  { exfalso. unfold _getUnprocessedChild in EC.
    destruct (t_ne _ _ _ _ _ T2 1 ltac:(lia)) as [e0 He0]. pose proof (t_rep _ _ _ _ _ T2) as R.
    rewrite (first_ok g1 adj1), bind_ret in EC.
    2: apply R.
    2: { unfold is_vertex. rewrite (t_N _ _ _ _ _ T2). lia. }
    destruct (adj1 1) as [|e l] eqn:EA; [destruct He0|].
    assert (He : In e (adj1 1)) by (rewrite EA; simpl; auto).
    pose proof (ch_range _ _ (rep_chains _ _ R) _ _ He) as Be. pose proof (tt_arc _ _ _ _ T1 _ _ He) as Fe.
    cbn [hd] in EC. rewrite get_nbr, bind_ret in EC by (apply inE_true; lia).
    unfold gp_GetEdgeType, gp_GetEdgeVisited in EC. rewrite !rd_eflags_ok, !bind_ret in EC by (apply inE_true; lia). rewrite Fe in EC.
    change (Z.land 4 EDGE_TYPE_MASK =? EDGE_TYPE_NOTDEFINED) with false in EC. cbv iota in EC.
    change (negb (Z.land 4 EDGE_VISITED_MASK =? 0)) with false in EC. cbv iota in EC.
    repeat match type of EC with
    | bind ?m _ = _ => destruct m; cbn [bind] in EC; try discriminate
    end.
    injection EC as _ EC. pose proof (arc_nbr_primary _ _ _ _ R (t_prim _ _ _ _ _ T2) He) as Pn. unfold primary, NIL in *. lia. }
  setoid_rewrite EC in U. setoid_rewrite bind_ret in U.
  assert (M2 : gM g2 = N - 1) by lia.
  assert (X : wp (triangulate fuel g2 1 c c M) (fun x =>
      exists adj dep done, tri g0 (fst x) adj dep done /\ N - 1 <= gM (fst x) <= Z.max (N - 1) (3 * N - 6) /\
        (asked m <= N - 1 -> gM (fst x) = N - 1 /\ snd x = C_OK) /\
        (snd x = C_OK \/ (snd x = C_NOTOK /\ gM (fst x) = gCap g0 / 2 /\ gM (fst x) < 3 * N - 6)))).
  { destruct (Z_lt_le_dec (gM g2) M) as [L|L].
    - assert (H3' : 3 <= N) by (unfold M in L; destruct (asked m <=? 3 * N - 6) eqn:?; lia).
      eapply wp_mono; [apply (triangulate_ok g0 M H3' fuel g2 adj2 _ [c] c c T3)|].
      + lia.
      + simpl; auto.
      + rewrite C2. unfold NIL. lia.
      + left. split; [auto|]. rewrite upd_same. cbn [length]. lia.
      + cbn [length]. lia.
      + intros x (adj & dep & done & A & B & C). exists adj, dep, done. split; [auto|]. split; [lia|]. split; [|auto].
        intros Ha. unfold M in L. destruct (asked m <=? 3 * N - 6) eqn:?; lia.
    - destruct fuel as [|fuel']; [lia|]. cbn [triangulate]. replace (gM g2 <? M) with false by lia. rewrite andb_false_r.
      apply wp_ret. cbn [fst snd]. eexists _, _, _. split; [exact T3|]. split; [lia|]. split; [auto|auto]. }
  destruct (wp_inv _ _ X) as ([g3 r] & E3 & adj & dep & done & A & B & C & D). cbn [fst snd] in *.
  assert (U2 : forall fuel', (fuel <= fuel')%nat -> triangulate fuel' g2 1 c c M = Ret (g3, r)).
  { intros fuel' Hf'. eapply triangulate_more; eauto. }
  destruct D as [->|(-> & D1 & D2)].
  - right. exists g3, adj, dep, done. split; [auto|]. split; [auto|]. split; [apply C|]. intros fuel' Hf'. rewrite U, U2 by auto. reflexivity.
  - left. exists g3. split; [intros fuel' Hf'; rewrite U, U2 by auto; reflexivity|]. split; [exists adj; apply A|]. split; [|lia].
    destruct (Z_le_gt_dec (asked m) (N - 1)) as [Q|Q]; [destruct (C Q); discriminate|lia].
Qed.

Lemma ex_finish m g1 adj dep done : 2 <= N -> tri g0 g1 adj dep done -> N - 1 <= gM g1 <= Z.max (N - 1) (3 * N - 6) ->
  (asked m <= N - 1 -> gM g1 = N - 1) -> forall x, more_post g1 (asked m) x ->
  wp (if negb (snd x =? C_OK) then Ret (fst x, C_NOTOK) else cleared (fst x)) (ex_post m).
Proof.
  intros H2 T B C [g r] (X1 & a & d & o & X2 & X3). cbn [fst snd] in *. rewrite X1. cbn [negb C_OK Z.eqb Pos.eqb].
  eapply wp_mono; [apply (cleared_ok g a d o ltac:(lia) X2)|].
  intros [g' r'] (Y1 & Y2 & Y3). cbn [fst snd] in *. left. cbn [fst snd].
  split; [auto|]. split; [eauto|]. split; [lia|]. split; [lia|]. split; [lia|]. split; [intros Q; specialize (C Q); lia|lia].
Qed.

Lemma ex_pc rnd m fuel : empty_graph g0 -> stream_ok rnd -> 2 <= N -> 3 * N <= INT_MAX -> N - 1 <= gCap g0 / 2 ->
  N + 1 <= Z.of_nat fuel -> pc (gp_CreateRandomGraphEx fuel rnd g0 m) (ex_post m).
Proof.
  intros Eg St H2 H3 Hc Hf.
  destruct (ex_unfold rnd m fuel Eg St H2 H3 Hc Hf) as [(g1 & E & A)|(g1 & adj & dep & done & T & B & C & E)]; rewrite E by auto.
  - cbn [pc]. right. cbn [fst snd]. auto.
  - apply pc_bind. eapply pc_mono; [apply (more_pc rnd (asked m) St ltac:(unfold INT_MAX in *; lia) ltac:(unfold asked; lia)) with adj dep done; auto|].
    intros [g r] X. apply pc_wp. exact (ex_finish m g1 adj dep done H2 T B C (g, r) X).
Qed.

Lemma ex_term rnd m : empty_graph g0 -> stream_ok rnd -> 2 <= N -> 3 * N <= INT_MAX -> N - 1 <= gCap g0 / 2 ->
  asked m <= N * (N - 1) / 2 -> fair_ex N (Z.to_nat (N - 1)) rnd ->
  exists fuel0, forall fuel, (fuel0 <= fuel)%nat -> wp (gp_CreateRandomGraphEx fuel rnd g0 m) (ex_post m).
Proof.
  intros Eg St H2 H3 Hc Ha Fr.
  destruct (ex_unfold rnd m (Z.to_nat (N + 1)) Eg St H2 H3 Hc ltac:(lia)) as [(g1 & E & A)|(g1 & adj & dep & done & T & B & C & E)].
  - exists (Z.to_nat (N + 1)). intros fuel Hf. rewrite E by auto. apply wp_ret. right. cbn [fst snd]. auto.
  - assert (HN : 1 <= N < INT_MAX) by (unfold INT_MAX in *; lia).
    assert (Hk : asked m <= gCap g0 / 2) by (unfold asked; lia).
    destruct (more_term rnd (Z.to_nat (N - 1)) (asked m) St HN Hk Ha Fr (Z.to_nat (asked m - gM g1)) 0 g1 adj dep done T ltac:(lia)) as (n & r & En).
    replace (Z.to_nat (N - 1) + 2 * 0)%nat with (Z.to_nat (N - 1)) in En by lia.
    exists (Nat.max n (Z.to_nat (N + 1))). intros fuel Hf. rewrite E by lia.
    pose proof (more_edges_more rnd n fuel _ _ _ _ ltac:(lia) En) as En'. rewrite En'. cbn [bind].
    pose proof (more_pc rnd (asked m) St HN Hk fuel (Z.to_nat (N - 1)) g1 adj dep done T) as P. rewrite En' in P. cbn [pc] in P.
    destruct r as [g r]. exact (ex_finish m g1 adj dep done H2 T B C (g, r) P).
Qed.
End Ex.
