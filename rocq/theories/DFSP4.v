(** * DFSP4: the effect of gp_SortVertices. *)
From Verif Require Import Base BaseP GraphRec GraphM GraphSpec GSimp LinkP GraphP GraphP5 DFSM DFSSpec DFSP DFSP2 DFSP3.

Definition parents_ok (g : graph) : Prop := forall v, primary g v -> par g v <> NIL -> primary g (par g v).

(** The effect of the sort, whatever the adjacency lists are. *)
Record sort_by (g g' : graph) (h : Z -> Z) : Prop := {
  sb_rel : relabelled (vindex g) g g';
  sb_if : giflags g' = Z.lxor (giflags g) FLAGS_SORTEDBYDFI;
  sb_h : forall v, primary g v -> h (vindex g v) = v;
  sb_hp : forall x, primary g x -> primary g (h x) /\ vindex g (h x) = x;
  sb_out : forall x, ~ primary g x -> h x = x;
  sb_inj : forall x y, h x = h y -> x = y;
  sb_first : forall x, vfirst g' x = vfirst g (h x);
  sb_last : forall x, vlast g' x = vlast g (h x);
  sb_vi : forall x, viLeast (gVI g') x = viLeast (gVI g) (h x) /\
    viLow (gVI g') x = viLow (gVI g) (h x) /\ viVisited (gVI g') x = viVisited (gVI g) (h x) /\
    viPertEdge (gVI g') x = viPertEdge (gVI g) (h x) /\ viPertRoots (gVI g') x = viPertRoots (gVI g) (h x) /\
    viFPChild (gVI g') x = viFPChild (gVI g) (h x) /\ viSDC (gVI g') x = viSDC (gVI g) (h x) /\ viFwd (gVI g') x = viFwd (gVI g) (h x) }.

Lemma sort_raw g : 1 <= gN g -> 0 <= gM g -> gp_EdgeInUseIndexBound g <= gp_EdgeIndexBound g ->
  (forall e, 2 <= e < gp_EdgeInUseIndexBound g ->
    (primary g (enbr g e) /\ primary g (enbr g (twin e))) \/ (enbr g e = NIL /\ enbr g (twin e) = NIL)) ->
  searched g -> numbering g (vindex g) -> parents_ok g ->
  exists g' h, gp_SortVertices g = Ret (g', C_OK) /\ sort_by g g' h.
Proof.
  intros HN HM HC Pair S Num Hp.
  unfold gp_SortVertices. unfold searched in S. rewrite (eqb_false_neq _ _ S). cbn [bind C_OK Z.eqb negb Pos.eqb].
  destruct (relabel_edges_ok g HN HM HC Pair Num) as (f & E1 & Hf). rewrite E1. cbn [bind]. gsimp.
  destruct (relabel_parents_ok g HN (set_enbr g f) eq_refl eq_refl eq_refl Hp) as (p & E2 & Hpf).
  gsimp_in E2. rewrite E2. cbn [bind].
  set (ga := set_gVI (set_enbr g f) (set_viParent (gVI g) p)).
  destruct (clear_visited_ok ga) as (vf & E3 & Hvf); [unfold ga; gsimp; lia|]. rewrite E3. cbn [bind].
  set (g1 := set_vflags ga vf).
  assert (Num1 : numbering g1 (vindex g1)) by exact Num.
  assert (Cl : forall v, primary g1 v -> visited g1 v = false).
  { intros v [Hv1 Hv2]. unfold visited, g1. gsimp. rewrite Hvf. unfold g1, ga in *. gsimp. gsimp_in Hv2.
    replace ((1 <=? v) && (v <=? gN g)) with true by lia. now rewrite visited_ldiff. }
  destruct (cycles_ok g1 Num1 Cl HN) as (s & h & D & E4 & Pl & HD & Hout). rewrite E4. cbn [bind].
  assert (Eh : forall v, primary g v -> h (vindex g v) = v).
  { intros v Hv. assert (Pv : primary g1 (vindex g1 v)) by (apply Num1; exact Hv).
    destruct (pl_Dp _ _ _ _ Pl (vindex g1 v)) as [_ E]; [now apply HD|].
    apply (proj2 Num1) in E; auto. apply (pl_p _ _ _ _ Pl). exact Pv. }
  assert (InD : forall v, primary g v -> In (vindex g v) D) by (intros v Hv; apply HD, Num1, Hv).
  pose proof (pl_rest _ _ _ _ Pl) as Es. 
  set (h' := set_giflags s (Z.lxor (giflags s) FLAGS_SORTEDBYDFI)).
  assert (RL : relabelled (vindex g) g h').
  { constructor; try (unfold h'; rewrite Es; reflexivity).
    - intros v Hv. unfold h'. gsimp. rewrite (pl_first _ _ _ _ Pl), Eh by auto. reflexivity.
    - intros v Hv. unfold h'. gsimp. rewrite (pl_last _ _ _ _ Pl), Eh by auto. reflexivity.
    - intros v Hv. unfold h'. gsimp. rewrite (pl_index _ _ _ _ Pl).
      destruct (in_dec Z.eq_dec (vindex g v) D) as [|N]; [now apply Eh|destruct N; auto].
    - intros v Hv. unfold h'. gsimp. rewrite (pl_flags _ _ _ _ Pl), Eh by auto.
      destruct (in_dec Z.eq_dec (vindex g v) D) as [|N]; [|destruct N; auto]. unfold g1. gsimp. rewrite Hvf.
      unfold ga. gsimp. destruct Hv. replace ((1 <=? v) && (v <=? gN g)) with true by lia. apply lor_ldiff.
    - intros v Hv. unfold par, h'. gsimp. destruct (pl_vi _ _ _ _ Pl (vindex g v)) as (E & _). rewrite E, Eh by auto.
      unfold g1, ga. gsimp. rewrite Hpf. destruct Hv. replace ((1 <=? v) && (v <=? gN g)) with true by lia. reflexivity.
    - intros v Hv. unfold h'. gsimp. destruct (pl_vi _ _ _ _ Pl (vindex g v)) as (_ & V). rewrite !Eh in V by auto. exact V.
    - intros v Hv. assert (N : ~ In v D) by (intros Hi; apply Hv; apply HD in Hi; exact Hi).
      unfold h'. gsimp. rewrite (pl_first _ _ _ _ Pl), (pl_last _ _ _ _ Pl), (pl_index _ _ _ _ Pl), (pl_flags _ _ _ _ Pl), (Hout v Hv).
      destruct (in_dec Z.eq_dec v D); [tauto|]. repeat split. unfold g1. gsimp. rewrite Hvf. unfold ga. gsimp.
      unfold primary in Hv. replace ((1 <=? v) && (v <=? gN g)) with false by lia. reflexivity.
    - intros e He. unfold h'. gsimp. rewrite Es. unfold g1, ga. gsimp. rewrite Hf.
      replace ((2 <=? e) && (e <? gp_EdgeInUseIndexBound g)) with true by lia. reflexivity.
    - intros e He. unfold h'. gsimp. rewrite Es. unfold g1, ga. gsimp. rewrite Hf.
      replace ((2 <=? e) && (e <? gp_EdgeInUseIndexBound g)) with false by lia. reflexivity. }
  exists h', h. split; [reflexivity|]. constructor.
  - exact RL.
  - unfold h'; rewrite Es; reflexivity.
  - exact Eh.
  - intros x Hx. split; [apply (pl_p _ _ _ _ Pl); exact Hx|]. apply (pl_Dp _ _ _ _ Pl x). apply HD. exact Hx.
  - exact Hout.
  - apply (pl_inj _ _ _ _ Pl).
  - intros x. unfold h'. gsimp. now rewrite (pl_first _ _ _ _ Pl).
  - intros x. unfold h'. gsimp. now rewrite (pl_last _ _ _ _ Pl).
  - intros x. apply (pl_vi _ _ _ _ Pl).
Qed.

Lemma sort_ok g adj : rep g adj -> primary_edges g adj -> searched g -> numbering g (vindex g) -> parents_ok g ->
  exists g' adj', gp_SortVertices g = Ret (g', C_OK) /\ relabelled (vindex g) g g' /\
    giflags g' = Z.lxor (giflags g) FLAGS_SORTEDBYDFI /\
    rep g' adj' /\ primary_edges g' adj' /\ (forall v, primary g v -> adj' (vindex g v) = adj v).
Proof.
  intros R P S Num Hp.
  destruct (sort_raw g) as (h' & h & E & SB); auto; try apply (rep_storage _ _ R).
  { intros e. now apply (pair_nil g adj). }
  pose proof (sb_rel _ _ _ SB) as RL. pose proof (sb_h _ _ _ SB) as Eh. pose proof (sb_out _ _ _ SB) as Hout.
  exists h', (fun x => adj (h x)). split; [exact E|]. split; [exact RL|].
  split; [apply SB|].
  pose proof (sb_hp _ _ _ SB) as Hpr.
  assert (Hv' : forall x, is_vertex g x <-> is_vertex g (h x)).
  { intros x. destruct (Z_le_dec 1 x), (Z_le_dec x (gN g)).
    1: destruct (Hpr x) as [[] _]; [split; auto|]. 1: unfold is_vertex; lia.
    all: rewrite Hout; [reflexivity|intros [H1 H2]; lia]. }
  assert (Inv : forall x, primary g (h x) -> vindex g (h x) = x /\ primary g x).
  { intros x Hx. destruct (Z_le_dec 1 x), (Z_le_dec x (gN g)).
    1: split; [apply Hpr|]; split; auto.
    all: exfalso; rewrite Hout in Hx; [destruct Hx; lia|intros [H1 H2]; lia]. }
  destruct R as [C T St].
  assert (EN : gN h' = gN g) by apply RL.
  assert (EB : gp_EdgeInUseIndexBound h' = gp_EdgeInUseIndexBound g)
    by (unfold gp_EdgeInUseIndexBound; now rewrite (rl_M _ _ _ RL), (rl_holes _ _ _ RL)).
  assert (EC : gp_EdgeIndexBound h' = gp_EdgeIndexBound g) by (unfold gp_EdgeIndexBound; now rewrite (rl_cap _ _ _ RL)).
  assert (Hin : forall x e, In e (adj (h x)) -> enbr h' e = vindex g (enbr g e) /\ primary g (enbr g e) /\
     2 <= twin e < gp_EdgeInUseIndexBound g /\ enbr h' (twin e) = x).
  { intros x e He. pose proof (P _ _ He) as Px. destruct (T _ _ He) as [T1 T2]. pose proof (P _ _ T2) as Pn.
    rewrite (rl_enbr _ _ _ RL) by apply (st_used _ _ St _ _ He).
    rewrite (rl_enbr _ _ _ RL) by apply (st_used _ _ St _ _ T2).
    rewrite T1. rewrite (eqb_false_neq (enbr g e)) by (destruct Pn; unfold NIL; lia).
    rewrite (eqb_false_neq (h x)) by (destruct Px; unfold NIL; lia).
    split; [auto|]. split; [auto|]. split; [apply (st_used _ _ St _ _ T2)|]. now apply Inv. }
  split; [constructor|split].
  - destruct C. constructor.
    + intros v Hv. unfold is_vertex in Hv. rewrite EN in Hv. rewrite <- ch_first by (apply (proj1 (Hv' v)); exact Hv).
      apply (sb_first _ _ _ SB).
    + intros v Hv. unfold is_vertex in Hv. rewrite EN in Hv. rewrite <- ch_last by (apply (proj1 (Hv' v)); exact Hv).
      apply (sb_last _ _ _ SB).
    + intros v Hv. unfold is_vertex in Hv. rewrite EN in Hv. rewrite (rl_enext _ _ _ RL), (rl_eprev _ _ _ RL). apply ch_linked. apply (proj1 (Hv' v)). exact Hv.
    + intros v Hv. apply ch_out. intros Hv2. apply Hv. unfold is_vertex. rewrite EN. apply (proj2 (Hv' v)). exact Hv2.
    + auto.
    + intros v w e Hv Hw. apply (sb_inj _ _ _ SB). eapply ch_disj; eauto.
    + intros v e He. rewrite EC. eapply ch_range; eauto.
  - intros v e He. destruct (Hin v e He) as (B1 & B2 & B3 & B4). split; [auto|]. rewrite B1, Eh by auto. now apply (T _ _ He).
  - destruct St. constructor; rewrite ?EB, ?EC, ?EN, ?(rl_M _ _ _ RL), ?(rl_cap _ _ _ RL), ?(rl_holes _ _ _ RL), ?(rl_holesCap _ _ _ RL); auto.
    + intros v e He. eapply st_used; eauto.
    + intros x Hx. destruct (st_holes x Hx) as (B1 & B2 & B3). split; [auto|].
      assert (Tx : 2 <= twin x < gp_EdgeInUseIndexBound g).
      { unfold gp_EdgeInUseIndexBound in *. set (k := gM g + Z.of_nat (length (gholes g))) in *.
        assert (Ev : Z.even (2 + k * 2) = true) by (rewrite Z.even_add, Z.even_mul, orb_true_r; reflexivity).
        pose proof (twin_range x (2 + k * 2) ltac:(lia) Ev ltac:(lia)). pose proof (twin_ge x 2 ltac:(lia) eq_refl ltac:(lia)).
        unfold twin. lia. }
      rewrite !(rl_enbr _ _ _ RL) by auto. rewrite B2, B3. auto.
    + intros e He. destruct (st_cover e He) as [H|H]; [left|auto].
      rewrite <- (Eh (enbr g (twin e))) in H by (apply (P _ _ H)).
      destruct (Hin _ _ H) as (_ & _ & _ & B). rewrite B. exact H.
  - intros v e He. unfold primary. rewrite EN. apply Inv. now apply (P _ _ He).
  - intros v Hv. now rewrite Eh.
Qed.

Lemma num_surj g : numbering g (vindex g) -> forall x, primary g x -> exists v, primary g v /\ vindex g v = x.
Proof.
  intros [N1 N2].
  intros x Hx.
    assert (Hin : In x (map (vindex g) (map (fun i : nat => (Z.of_nat i + 1)%Z) (seq 0 (Z.to_nat (gN g)))))).
    { apply (nodup_full _ (gN g)).
      - apply NoDup_map_inv with (f := fun x => x). rewrite map_id.
        assert (Hn : NoDup (map (fun i : nat => (Z.of_nat i + 1)%Z) (seq 0 (Z.to_nat (gN g)))))
          by (apply FinFun.Injective_map_NoDup; [intros a b; lia|apply seq_NoDup]).
        assert (Hr : forall y, In y (map (fun i : nat => (Z.of_nat i + 1)%Z) (seq 0 (Z.to_nat (gN g)))) -> primary g y).
        { intros y Hy. apply in_map_iff in Hy. destruct Hy as (i & <- & Hi). apply in_seq in Hi. unfold primary. lia. }
        revert Hn Hr. generalize (map (fun i : nat => (Z.of_nat i + 1)%Z) (seq 0 (Z.to_nat (gN g)))). intros l.
        induction l as [|a l IH]; intros Hn Hr; [constructor|]. apply NoDup_cons_iff in Hn. destruct Hn as [Ha Hn].
        cbn [map]. constructor.
        + intros Hi. apply in_map_iff in Hi. destruct Hi as (b & E & Hb). apply N2 in E; [subst; auto|apply Hr; now right|apply Hr; now left].
        + apply IH; [auto|]. intros; apply Hr; now right.
      - intros y Hy. apply in_map_iff in Hy. destruct Hy as (b & <- & Hb). apply in_map_iff in Hb. destruct Hb as (i & <- & Hi).
        apply in_seq in Hi. apply N1. unfold primary. lia.
      - rewrite !map_length, seq_length. destruct Hx. lia.
      - exact Hx. }
    apply in_map_iff in Hin. destruct Hin as (v & E & Hv). exists v. split; [|auto].
    apply in_map_iff in Hv. destruct Hv as (i & <- & Hi). apply in_seq in Hi. unfold primary. lia. 
Qed.

(** Sorting twice. *)
Lemma relabelled_numbering g h : numbering g (vindex g) -> relabelled (vindex g) g h -> numbering h (vindex h) .
Proof.
  intros [N1 N2] RL.
  assert (PN : forall v, primary h v <-> primary g v) by (intros v; unfold primary; now rewrite (rl_N _ _ _ RL)).
  pose proof (num_surj g (conj N1 N2)) as Sur.
  split.
  - intros v Hv. apply PN in Hv. destruct (Sur v Hv) as (u & Hu & <-). rewrite (rl_back _ _ _ RL) by auto. now apply PN.
  - intros v w Hv Hw. apply PN in Hv, Hw. destruct (Sur v Hv) as (u & Hu & <-). destruct (Sur w Hw) as (z & Hz & <-).
    rewrite !(rl_back _ _ _ RL) by auto. congruence.
Qed.

Lemma relabelled_twice g adj h k : rep g adj -> primary_edges g adj -> numbering g (vindex g) -> parents_ok g ->
  relabelled (vindex g) g h -> giflags h = Z.lxor (giflags g) FLAGS_SORTEDBYDFI ->
  relabelled (vindex h) h k -> giflags k = Z.lxor (giflags h) FLAGS_SORTEDBYDFI ->
  same_but_visited g k.
Proof.
  intros R P [N1 N2] Hp A IA B IB.
  assert (PN : forall v, primary h v <-> primary g v) by (intros v; unfold primary; now rewrite (rl_N _ _ _ A)).
  assert (Ph : forall v, primary g v -> primary h (vindex g v)) by (intros v Hv; apply PN; auto).
  assert (Bk : forall v, primary g v -> vindex h (vindex g v) = v) by (apply (rl_back _ _ _ A)).
  assert (EB : gp_EdgeInUseIndexBound h = gp_EdgeInUseIndexBound g)
    by (unfold gp_EdgeInUseIndexBound; now rewrite (rl_M _ _ _ A), (rl_holes _ _ _ A)).
  assert (V : forall v, ~ primary g v -> ~ primary h v) by (intros v Hv Hv2; apply Hv; now apply PN).
  constructor.
  - rewrite (rl_N _ _ _ B). apply A.
  - rewrite (rl_M _ _ _ B). apply A.
  - rewrite (rl_cap _ _ _ B). apply A.
  - intros v Hv. destruct (Z_le_dec v (gN g)) as [Hl|Hl].
    + assert (Pv : primary g v) by (destruct Hv; split; auto).
      pose proof (rl_first _ _ _ B (vindex g v) (Ph v Pv)) as E. rewrite (Bk v Pv) in E. rewrite E. now apply (rl_first _ _ _ A).
    + assert (Pv : ~ primary g v) by (intros [H1 H2]; lia).
      destruct (rl_virtual _ _ _ A v Pv) as (E1 & _). destruct (rl_virtual _ _ _ B v (V v Pv)) as (E2 & _). congruence.
  - intros v Hv. destruct (Z_le_dec v (gN g)) as [Hl|Hl].
    + assert (Pv : primary g v) by (destruct Hv; split; auto).
      pose proof (rl_last _ _ _ B (vindex g v) (Ph v Pv)) as E. rewrite (Bk v Pv) in E. rewrite E. now apply (rl_last _ _ _ A).
    + assert (Pv : ~ primary g v) by (intros [H1 H2]; lia).
      destruct (rl_virtual _ _ _ A v Pv) as (_ & E1 & _). destruct (rl_virtual _ _ _ B v (V v Pv)) as (_ & E2 & _). congruence.
  - intros v Hv. destruct (Z_le_dec v (gN g)) as [Hl|Hl].
    + assert (Pv : primary g v) by (destruct Hv; split; auto).
      pose proof (rl_back _ _ _ B (vindex g v) (Ph v Pv)) as E. rewrite (Bk v Pv) in E. exact E.
    + assert (Pv : ~ primary g v) by (intros [H1 H2]; lia).
      destruct (rl_virtual _ _ _ A v Pv) as (_ & _ & E1 & _). destruct (rl_virtual _ _ _ B v (V v Pv)) as (_ & _ & E2 & _). congruence.
  - intros v Pv. pose proof (rl_vflags _ _ _ B (vindex g v) (Ph v Pv)) as E. rewrite (Bk v Pv) in E. rewrite E.
    rewrite (rl_vflags _ _ _ A v Pv). rewrite <- Z.lor_assoc. now rewrite Z.lor_diag.
  - intros v Hv. assert (Pv : ~ primary g v) by (intros [H1 H2]; lia).
    destruct (rl_virtual _ _ _ A v Pv) as (_ & _ & _ & E1). destruct (rl_virtual _ _ _ B v (V v Pv)) as (_ & _ & _ & E2). congruence.
  - intros v Pv. split.
    + pose proof (rl_parent _ _ _ B (vindex g v) (Ph v Pv)) as E. rewrite (Bk v Pv) in E. rewrite E.
      rewrite (rl_parent _ _ _ A v Pv). destruct (par g v =? NIL) eqn:X; [apply Z.eqb_eq in X; rewrite X; reflexivity|].
      apply Z.eqb_neq in X. pose proof (Hp v Pv X) as Pp. destruct (N1 _ Pp) as [Q _].
      rewrite (eqb_false_neq (vindex g (par g v))) by (unfold NIL; lia). now apply Bk.
    + pose proof (rl_info _ _ _ B (vindex g v) (Ph v Pv)) as E. rewrite (Bk v Pv) in E.
      pose proof (rl_info _ _ _ A v Pv) as E'. destruct E as (? & ? & ? & ? & ? & ? & ? & ?), E' as (? & ? & ? & ? & ? & ? & ? & ?).
      repeat split; congruence.
  - intros e. destruct (Z_le_dec 2 e), (Z_lt_dec e (gp_EdgeInUseIndexBound g)).
    1:{ rewrite (rl_enbr _ _ _ B) by (rewrite EB; auto). rewrite (rl_enbr _ _ _ A) by auto.
        destruct (enbr g e =? NIL) eqn:X; [apply Z.eqb_eq in X; rewrite X; reflexivity|]. apply Z.eqb_neq in X.
        destruct (pair_nil g adj e R P ltac:(auto)) as [[Pn _]|[Pn _]]; [|congruence].
        destruct (N1 _ Pn) as [Q _]. rewrite (eqb_false_neq (vindex g (enbr g e))) by (unfold NIL; lia). now apply Bk. }
    all: rewrite (rl_unused _ _ _ B) by (rewrite EB; lia); rewrite (rl_unused _ _ _ A) by lia; reflexivity.
  - rewrite (rl_enext _ _ _ B). apply A.
  - rewrite (rl_eprev _ _ _ B). apply A.
  - rewrite (rl_eflags _ _ _ B). apply A.
  - rewrite (rl_holes _ _ _ B). apply A.
  - rewrite (rl_holesCap _ _ _ B). apply A.
  - rewrite (rl_stack _ _ _ B). apply A.
  - rewrite (rl_stackCap _ _ _ B). apply A.
  - rewrite IB, IA, Z.lxor_assoc, Z.lxor_nilpotent. apply Z.lxor_0_r.
  - rewrite (rl_embed _ _ _ B). apply A.
  - rewrite (rl_X _ _ _ B). apply A.
Qed.

(** A search forest is carried along. *)
Lemma relabelled_forest g adj h adj' : rep g adj -> primary_edges g adj ->
  dfs_forest g adj (par g) (vindex g) -> relabelled (vindex g) g h ->
  rep h adj' -> primary_edges h adj' -> (forall v, primary g v -> adj' (vindex g v) = adj v) ->
  dfs_forest h adj' (par h) (fun v => v).
Proof.
  intros R P DF RL R' P' Hadj. destruct DF as [F1 F2 F3 F4 F5 F6 F7 F8].
  assert (Num : numbering g (vindex g)) by (split; auto).
  pose proof (num_surj g Num) as Sur. set (pi := vindex g) in *.
  assert (PN : forall v, primary h v <-> primary g v) by (intros v; unfold primary; now rewrite (rl_N _ _ _ RL)).
  assert (NZ : forall v, primary g v -> pi v <> NIL) by (intros v Hv; destruct (proj1 Num v Hv); unfold NIL; lia).
  assert (Par : forall v, primary g v -> par g v <> NIL -> par h (pi v) = pi (par g v) /\ par h (pi v) <> NIL).
  { intros v Hv Hp. rewrite (rl_parent _ _ _ RL v Hv), (eqb_false_neq _ _ Hp). split; [auto|]. apply NZ. now apply F3. }
  assert (Par0 : forall v, primary g v -> par g v = NIL -> par h (pi v) = NIL).
  { intros v Hv Hp. rewrite (rl_parent _ _ _ RL v Hv), Hp. reflexivity. }
  assert (ParI : forall v, primary g v -> par h (pi v) <> NIL -> par g v <> NIL /\ par h (pi v) = pi (par g v)).
  { intros v Hv Hp. destruct (Z.eq_dec (par g v) NIL) as [E|N]; [rewrite (Par0 v Hv E) in Hp; congruence|]. split; [auto|]. now apply Par. }
  assert (Inj : forall a b, primary g a -> primary g b -> pi a = pi b -> a = b) by apply Num.
  assert (Arc : forall x e, In e (adj' x) -> exists v, primary g v /\ pi v = x /\ In e (adj v) /\ enbr h e = pi (enbr g e) /\ primary g (enbr g e)).
  { intros x e He. pose proof (P' _ _ He) as Px. apply PN in Px. destruct (Sur x Px) as (v & Hv & <-). exists v.
    rewrite Hadj in He by auto. do 3 (split; [auto|]). destruct (rep_twins _ _ R _ _ He) as [T1 T2]. pose proof (P _ _ T2) as Pn.
    split; [|auto]. rewrite (rl_enbr _ _ _ RL) by apply (st_used _ _ (rep_storage _ _ R) _ _ He).
    rewrite (eqb_false_neq (enbr g e)); [auto|]. destruct Pn; unfold NIL; lia. }
  assert (ArcI : forall v e, In e (adj v) -> In e (adj' (pi v)) /\ enbr h e = pi (enbr g e)).
  { intros v e He. pose proof (P _ _ He) as Pv. rewrite Hadj by auto. split; [auto|].
    rewrite <- (Hadj v Pv) in He. destruct (Arc _ _ He) as (_ & _ & _ & _ & E & _). auto. }
  assert (Ty : forall e, etype h e = etype g e) by (intros e; unfold etype; now rewrite (rl_eflags _ _ _ RL)).
  assert (AF : forall a v, primary g v -> ancestor (par g) a v -> ancestor (par h) (pi a) (pi v)).
  { intros a v Hv H. induction H as [|v Hn H IH]; [constructor|]. destruct (Par v Hv Hn) as [E1 E2].
    apply anc_step; [auto|]. rewrite E1. apply IH. now apply F3. }
  assert (AB : forall x y, ancestor (par h) x y -> forall v, primary g v -> pi v = y -> exists a, primary g a /\ pi a = x /\ ancestor (par g) a v).
  { intros x y H. induction H as [|y Hn H IH]; intros v Hv <-.
    - exists v. do 2 (split; [auto|]). constructor.
    - destruct (ParI v Hv Hn) as [E1 E2]. destruct (IH (par g v)) as (a & A1 & A2 & A3); [now apply F3|auto|].
      exists a. do 2 (split; [auto|]). now apply anc_step. }
  constructor.
  - intros x Hx. exact Hx.
  - auto.
  - intros x Hx Hp. apply PN in Hx. destruct (Sur x Hx) as (v & Hv & <-). destruct (ParI v Hv Hp) as [E1 E2]. rewrite E2.
    destruct (F3 v Hv E1) as [Q1 Q2]. split; [apply PN, Num; auto|auto].
  - intros x Hx Hp. apply PN in Hx. destruct (Sur x Hx) as (v & Hv & <-). destruct (ParI v Hv Hp) as [E1 E2]. rewrite E2.
    destruct (F4 v Hv E1) as (e & B1 & B2 & B3 & B4). destruct (ArcI _ _ B1) as [B5 B6]. exists e. rewrite Ty, B6, B2.
    do 3 (split; [auto|]). intros u e' He' En Et. destruct (Arc u e' He') as (u0 & C1 & C2 & C3 & C4 & C5). rewrite C4 in En.
    rewrite Ty in Et. apply (B4 u0); auto.
  - intros x e He Hn. cbv zeta. destruct (Arc x e He) as (u & C1 & <- & C3 & C4 & C5). rewrite C4 in *. rewrite !Ty.
    assert (Hn' : enbr g e <> u) by congruence. pose proof (F5 u e C3 Hn') as Q. cbv zeta in Q.
    destruct Q as [(Q1 & Q2 & Q3)|[(Q1 & Q2 & Q3)|[(Q1 & Q2 & Q3)|(Q1 & Q2 & Q3)]]].
    + left. do 2 (split; [auto|]). destruct (Par (enbr g e) C5) as [E _]; [rewrite Q3; destruct C1; unfold NIL; lia|]. congruence.
    + right; left. do 2 (split; [auto|]). destruct (Par u C1) as [E _]; [rewrite Q3; destruct C5; unfold NIL; lia|]. congruence.
    + right; right; left. auto.
    + right; right; right. auto.
  - intros x e He Hl. destruct (Arc x e He) as (u & C1 & <- & C3 & C4 & C5). rewrite C4 in Hl. rewrite Ty. apply (F6 u e C3). auto.
  - intros x y z Hx Hy Hz Ha Hi. apply PN in Hx, Hy, Hz. destruct (Sur x Hx) as (u & Hu & <-). destruct (Sur y Hy) as (v & Hv & <-).
    destruct (Sur z Hz) as (d & Hd & <-). destruct (AB _ _ Ha d Hd eq_refl) as (a & A1 & A2 & A3).
    assert (a = u) as -> by auto. apply AF; [auto|]. apply (F7 u v d); auto.
  - assert (CF : forall r v, connected g adj r v -> connected h adj' (pi r) (pi v)).
    { intros r v H. induction H as [|v e H IH He]; [constructor|]. destruct (ArcI v e He) as [E1 E2]. rewrite <- E2.
      now apply conn_step with (pi v). }
    assert (CB : forall x y, connected h adj' x y -> forall r, primary g r -> pi r = x -> exists v, primary g v /\ pi v = y /\ connected g adj r v).
    { intros x y H r Hr Er. induction H as [|y e H IH He].
      - exists r. do 2 (split; [auto|]). constructor.
      - destruct IH as (v & V1 & V2 & V3). destruct (Arc y e He) as (u & C1 & C2 & C3 & C4 & C5).
        assert (u = v) as -> by (apply Inj; congruence). exists (enbr g e). do 2 (split; [auto|]). now apply conn_step with v. }
    intros x Hx. apply PN in Hx. destruct (Sur x Hx) as (v & Hv & <-). destruct (F8 v Hv) as (r & Q1 & Q2 & Q3 & Q4).
    exists (pi r). split; [apply PN, Num; auto|]. split; [auto|]. split; [auto|].
    intros r' Hr' Hp' Hc. apply PN in Hr'. destruct (Sur r' Hr') as (q & Hq & <-). f_equal.
    destruct (CB _ _ Hc q Hq eq_refl) as (w & W1 & W2 & W3). assert (w = v) as -> by auto.
    apply Q4; auto. destruct (Z.eq_dec (par g q) NIL) as [|N]; [auto|]. destruct (Par q Hq N); congruence.
Qed.
