(** * RandP: proofs about random numbers, random trees and gp_CreateRandomGraph. *)
From Coq Require Import ZifyBool.
From Verif Require Import Base BaseP GraphRec GraphM GraphSpec GSimp LinkP GraphP GraphP2 GraphP3 GraphP4 GraphP5 DFSSpec DFSP RandM RandSpec.

Lemma pc_bind {A B} (m : res A) (k : A -> res B) (Q : B -> Prop) : pc m (fun a => pc (k a) Q) -> pc (bind m k) Q.
Proof. destruct m; auto. Qed.
Lemma pc_wp {A} (m : res A) (Q : A -> Prop) : wp m Q -> pc m Q.
Proof. destruct m; simpl; tauto. Qed.
Lemma pc_mono {A} (m : res A) (P Q : A -> Prop) : pc m P -> (forall a, P a -> Q a) -> pc m Q.
Proof. destruct m; simpl; auto. Qed.

(** ** Numbers *)
Lemma land_high r : 0 <= r < 2 ^ 32 -> Z.shiftr (Z.land r 4294901760) 16 = r / 65536.
Proof.
  intros H. change 65536 with (2 ^ 16). rewrite <- Z.shiftr_div_pow2 by lia.
  rewrite Z.shiftr_land. change (Z.shiftr 4294901760 16) with (Z.ones 16). rewrite Z.land_ones by lia.
  apply Z.mod_small. rewrite Z.shiftr_div_pow2 by lia. split; [apply Z.div_pos; lia|apply Z.div_lt_upper_bound; lia].
Qed.
Lemma land_mid n : Z.shiftr (Z.land n 65280) 8 = n / 256 mod 256.
Proof.
  rewrite Z.shiftr_land. change (Z.shiftr 65280 8) with (Z.ones 8). rewrite Z.land_ones by lia.
  rewrite Z.shiftr_div_pow2 by lia. reflexivity.
Qed.
Lemma wrap_same z : int_ok z = true -> wrap32 z = z.
Proof. unfold int_ok, wrap32, INT_MAX. intros H. rewrite Z.mod_small by lia. lia. Qed.
Lemma wrap_high z : INT_MAX < z < 4294967296 -> wrap32 z = z - 4294967296.
Proof.
  unfold wrap32, INT_MAX. intros H.
  replace (z + 2147483648) with (z - 2147483648 + 1 * 4294967296) by lia. rewrite Z.mod_add by lia.
  rewrite Z.mod_small by lia. lia.
Qed.

Lemma rand_mix_ok r : draw_ok r -> rand_mix r = Ret (mixed r).
Proof.
  intros [[H0 H1] H2]. unfold rand_mix, mixed. cbv zeta.
  rewrite land_high by (unfold INT_MAX in *; lia).
  assert (D : 0 <= r / 65536 <= 32767).
  { split; [apply Z.div_pos; lia|]. assert (r / 65536 < 32768); [|lia]. apply Z.div_lt_upper_bound; unfold INT_MAX in *; lia. }
  set (n := r + r / 65536) in *. rewrite land_mid.
  change 134217727 with (Z.ones 27). change 134217728 with (2 ^ 27). rewrite Z.land_ones by lia.
  destruct (Z_le_gt_dec n INT_MAX) as [L|L].
  - rewrite wrap_same by (unfold int_ok, INT_MAX in *; lia).
    pose proof (Z.mod_pos_bound (n / 256) 256 ltac:(lia)).
    rewrite guard_true; [reflexivity|]. unfold int_ok, INT_MAX in *. lia.
  - rewrite wrap_high by (unfold INT_MAX in *; lia).
    replace ((n - 4294967296) / 256) with (n / 256 + (-65536) * 256).
    2: { replace (n - 4294967296) with (n + (-16777216) * 256) by lia. rewrite Z.div_add by lia. reflexivity. }
    rewrite Z.mod_add by lia. pose proof (Z.mod_pos_bound (n / 256) 256 ltac:(lia)).
    rewrite guard_true by (unfold int_ok, INT_MAX in *; lia).
    f_equal. replace (n - 4294967296 + (n / 256) mod 256) with (n + (n / 256) mod 256 + (-32) * 2 ^ 27) by lia.
    apply Z.mod_add. lia.
Qed.
Lemma mixed_nonneg r : 0 <= mixed r.
Proof. unfold mixed. apply Z.mod_pos_bound. lia. Qed.

Lemma random_ok r lo hi : draw_ok r -> hi - lo < INT_MAX -> _GetRandomNumber r lo hi = Ret (pick r lo hi).
Proof.
  intros D H. unfold _GetRandomNumber, pick. destruct (hi <? lo) eqn:E; [reflexivity|].
  rewrite rand_mix_ok, bind_ret by auto. rewrite guard_true by (unfold int_ok, INT_MAX in *; lia).
  rewrite Z.rem_mod_nonneg by (pose proof (mixed_nonneg r); lia). f_equal. lia.
Qed.
Lemma pick_range r lo hi : lo <= hi -> lo <= pick r lo hi <= hi.
Proof.
  intros H. unfold pick. replace (hi <? lo) with false by lia.
  pose proof (Z.mod_pos_bound (mixed r) (hi - lo + 1) ltac:(lia)). lia.
Qed.

(** ** Adding an edge, seen through membership *)
Record added (g g' : graph) (adj adj' : Z -> list Z) (u v a : Z) : Prop := {
  ad_rep : rep g' adj';
  ad_in : forall w x, In x (adj' w) <-> In x (adj w) \/ (x = a /\ w = u) \/ (x = twin a /\ w = v);
  ad_fresh : forall w, ~ In a (adj w) /\ ~ In (twin a) (adj w);
  ad_bnd : 2 <= a < gp_EdgeIndexBound g /\ 2 <= twin a < gp_EdgeIndexBound g;
  ad_a : enbr g' a = v; ad_ta : enbr g' (twin a) = u;
  ad_enbr : forall w x, In x (adj w) -> enbr g' x = enbr g x;
  ad_frame : insert_frame g g' }.

Lemma add_edge_in g adj u ul v vl : rep g adj -> is_vertex g u -> is_vertex g v -> link_ok ul -> link_ok vl ->
  gM g < gCap g / 2 ->
  exists g' a, gp_AddEdge g u ul v vl = Ret (g', C_OK) /\ added g g' adj (adj_insert adj u NIL ul v NIL vl a) u v a.
Proof.
  intros R Hu Hv Lu Lv HM. destruct (slot_facts g adj R HM) as (Sv & Su & Fv & Fu).
  pose proof (add_edge_ok g adj u ul v vl R Lu Lv) as W.
  destruct (wp_inv _ _ W) as ([g' r] & E & P). cbn [fst snd] in P.
  unfold add_post, valid_vertex in P.
  replace (_ && _) with true in P by (unfold is_vertex in *; lia). cbn [negb] in P.
  replace (gCap g / 2 <=? gM g) with false in P by lia. destruct P as [-> P].
  exists g', (twin (snd (take_edge_slot g))). split; [exact E|].
  constructor.
  - exact (ip_rep _ _ _ _ _ _ _ _ _ P).
  - intros w x. apply (in_adj_insert g); auto; [apply R|unfold NIL; lia].
  - intros w. rewrite twin_invol. auto.
  - rewrite twin_invol. auto.
  - rewrite (ip_enbr _ _ _ _ _ _ _ _ _ P). rewrite (eqb_false_neq _ _ (twin_ne _)), Z.eqb_refl. auto.
  - rewrite (ip_enbr _ _ _ _ _ _ _ _ _ P), twin_invol, Z.eqb_refl. auto.
  - intros w x Hx. rewrite (ip_enbr _ _ _ _ _ _ _ _ _ P).
    rewrite !eqb_false_neq; auto; intros ->; [exact (Fu _ Hx)|exact (Fv _ Hx)].
  - exact (ip_frame _ _ _ _ _ _ _ _ _ P).
Qed.
Lemma add_edge_full g adj u ul v vl : rep g adj -> is_vertex g u -> is_vertex g v -> link_ok ul -> link_ok vl ->
  gCap g / 2 <= gM g -> gp_AddEdge g u ul v vl = Ret (g, C_NONEMBEDDABLE).
Proof.
  intros R Hu Hv Lu Lv HM. pose proof (add_edge_ok g adj u ul v vl R Lu Lv) as W.
  destruct (wp_inv _ _ W) as ([g' r] & E & P). cbn [fst snd] in P.
  unfold add_post, valid_vertex in P.
  replace (_ && _) with true in P by (unfold is_vertex in *; lia). cbn [negb] in P.
  replace (gCap g / 2 <=? gM g) with true in P by lia. destruct P as [-> ->]. exact E.
Qed.

Lemma added_nbr g g' adj adj' u v a w x : added g g' adj adj' u v a -> In x (adj' w) ->
  (In x (adj w) /\ enbr g' x = enbr g x) \/ (x = a /\ w = u /\ enbr g' x = v) \/ (x = twin a /\ w = v /\ enbr g' x = u).
Proof.
  intros A H. apply (ad_in _ _ _ _ _ _ _ A) in H. destruct H as [H|[[-> ->]|[-> ->]]].
  - left. split; auto. eapply ad_enbr; eauto.
  - right. left. split; [auto|split; [auto|exact (ad_a _ _ _ _ _ _ _ A)]].
  - right. right. split; [auto|split; [auto|exact (ad_ta _ _ _ _ _ _ _ A)]].
Qed.
Lemma simple_added g g' adj adj' u v a : simple g adj -> rep g adj -> u <> v -> ~ adjacent g adj u v ->
  added g g' adj adj' u v a -> simple g' adj'.
Proof.
  intros [S1 S2] R N NA A. split.
  - intros w e H. destruct (added_nbr _ _ _ _ _ _ _ _ _ A H) as [[H1 E]|[(-> & -> & E)|(-> & -> & E)]]; rewrite E; auto.
  - assert (NA2 : forall e, In e (adj v) -> enbr g e <> u).
    { intros e He E. apply NA. exists (twin e). destruct (rep_twins _ _ R _ _ He) as [T1 T2]. rewrite E in T2. auto. }
    assert (NA1 : forall e, In e (adj u) -> enbr g e <> v) by (intros e He E; apply NA; exists e; auto).
    intros w e f He Hf.
    destruct (added_nbr _ _ _ _ _ _ _ _ _ A He) as [[H1 E1]|[(-> & -> & E1)|(-> & Hw & E1)]];
    destruct (added_nbr _ _ _ _ _ _ _ _ _ A Hf) as [[H2 E2]|[(-> & Hw2 & E2)|(-> & Hw2 & E2)]]; subst; intros Q; rewrite ?E1, ?E2 in Q; auto;
    try (exfalso; first [eapply NA1; eassumption | eapply NA2; eassumption | eapply NA1; [eassumption|symmetry; eassumption] | eapply NA2; [eassumption|symmetry; eassumption] | congruence]).
    + eapply S2; eauto.
Qed.
Lemma primary_added g g' adj adj' u v a : primary_edges g adj -> primary g u -> primary g v ->
  added g g' adj adj' u v a -> primary_edges g' adj'.
Proof.
  intros P Pu Pv A w e H. unfold primary. rewrite (if_N _ _ (ad_frame _ _ _ _ _ _ _ A)).
  apply (ad_in _ _ _ _ _ _ _ A) in H. destruct H as [H|[[_ ->]|[_ ->]]]; auto. exact (P _ _ H).
Qed.
Lemma connected_added g g' adj adj' u v a r w : added g g' adj adj' u v a -> connected g adj r w -> connected g' adj' r w.
Proof.
  intros A. induction 1 as [|w e _ IH He]; [constructor|].
  rewrite <- (ad_enbr _ _ _ _ _ _ _ A _ _ He). apply conn_step with w; auto. apply (ad_in _ _ _ _ _ _ _ A). auto.
Qed.
Lemma connected_trans g adj a b c : connected g adj a b -> connected g adj b c -> connected g adj a c.
Proof. intros H. induction 1; auto. eapply conn_step; eauto. Qed.
Lemma connected_sym g adj a b : rep g adj -> connected g adj a b -> connected g adj b a.
Proof.
  intros R. induction 1 as [|w e _ IH He]; [constructor|].
  destruct (rep_twins _ _ R _ _ He) as [T1 T2].
  apply connected_trans with w; auto. rewrite <- T1. apply conn_step with (enbr g e); auto. constructor.
Qed.
Lemma connected_edge g adj e u v : In e (adj u) -> enbr g e = v -> connected g adj u v.
Proof. intros H <-. apply conn_step with u; auto. constructor. Qed.
Lemma arc_nbr_primary g adj w e : rep g adj -> primary_edges g adj -> In e (adj w) -> primary g (enbr g e).
Proof. intros R P H. destruct (rep_twins _ _ R _ _ H) as [_ T]. exact (P _ _ T). Qed.

(** ** Random trees *)
Record tree_inv (g0 g : graph) (adj : Z -> list Z) (v : Z) : Prop := {
  ti_rep : rep g adj; ti_N : gN g = gN g0; ti_cap : gCap g = gCap g0;
  ti_simple : simple g adj; ti_prim : primary_edges g adj;
  ti_low : forall w e, In e (adj w) -> w < v;
  ti_conn : forall w, 1 <= w < v -> connected g adj 1 w;
  ti_M : gM g = v - 2; ti_VI : gVI g = gVI g0 }.

Lemma prim_vertex g v : primary g v -> is_vertex g v.
Proof. unfold primary, is_vertex. lia. Qed.

Lemma tree_inv_step g0 g adj v u g' adj' a :
  tree_inv g0 g adj v -> 1 <= u < v -> v <= gN g0 -> added g g' adj adj' u v a -> tree_inv g0 g' adj' (v + 1).
Proof.
  intros T Hu Hv A. pose proof (ad_frame _ _ _ _ _ _ _ A) as F.
  assert (Pu : primary g u) by (unfold primary; rewrite (ti_N _ _ _ _ T); lia).
  assert (Pv : primary g v) by (unfold primary; rewrite (ti_N _ _ _ _ T); lia).
  assert (Nv : ~ adjacent g adj u v).
  { intros (e & He & E). destruct (rep_twins _ _ (ti_rep _ _ _ _ T) _ _ He) as [_ H]. rewrite E in H.
    pose proof (ti_low _ _ _ _ T _ _ H). lia. }
  constructor.
  - apply A.
  - rewrite (if_N _ _ F). apply T.
  - rewrite (if_cap _ _ F). apply T.
  - eapply simple_added; [apply T|apply T| |exact Nv|exact A]. lia.
  - eapply primary_added; [apply T|exact Pu|exact Pv|exact A].
  - intros w e H. apply (ad_in _ _ _ _ _ _ _ A) in H. destruct H as [H|[[_ ->]|[_ ->]]]; try lia.
    pose proof (ti_low _ _ _ _ T _ _ H). lia.
  - intros w Hw. destruct (Z.eq_dec w v) as [->|Hne].
    + apply connected_trans with u.
      * eapply connected_added; [exact A|]. apply T. lia.
      * apply connected_edge with a; [apply (ad_in _ _ _ _ _ _ _ A); auto|apply A].
    + eapply connected_added; [exact A|]. apply T. lia.
  - rewrite (if_M _ _ F), (ti_M _ _ _ _ T). lia.
  - rewrite (if_VI _ _ F). apply T.
Qed.
Lemma tree_inv_start g : rep g no_adj -> gM g = 0 -> tree_inv g g no_adj 2.
Proof.
  intros R HM. constructor; auto.
  - split; intros ? ? []; contradiction.
  - intros ? ? [].
  - intros ? ? [].
  - intros w Hw. replace w with 1 by lia. constructor.
Qed.
Lemma empty_M g : rep g no_adj -> gM g = 0.
Proof.
  intros R. pose proof (rep_sumdeg _ _ R) as H.
  assert (E : forall n, sumdeg no_adj n = 0) by (induction n as [|n IH]; cbn [sumdeg]; [auto|rewrite IH; reflexivity]).
  rewrite E in H. lia.
Qed.

Lemma tree_edges_ok rnd g0 : stream_ok rnd -> gN g0 <= INT_MAX -> gN g0 - 1 <= gCap g0 / 2 -> forall n k g adj v,
  tree_inv g0 g adj v -> 2 <= v -> v + Z.of_nat n = gN g0 + 1 -> eflags g = eflags g0 ->
  exists g' adj', tree_edges n rnd k g v = Ret (g', (k + n)%nat, C_OK) /\ tree_inv g0 g' adj' (gN g0 + 1) /\ eflags g' = eflags g0.
Proof.
  intros St HN Hcap. induction n as [|n IH]; intros k g adj v T Hv Hn Fl; cbn [tree_edges].
  - exists g, adj. replace (k + 0)%nat with k by lia. split; [auto|]. split; auto. replace (gN g0 + 1) with v by lia. auto.
  - rewrite random_ok by (auto; lia). rewrite bind_ret.
    pose proof (pick_range (rnd k) 1 (v - 1) ltac:(lia)) as HP. set (u := pick _ _ _) in *.
    destruct (add_edge_in g adj u 0 v 0) as (g' & a & E & A).
    + apply T.
    + unfold is_vertex. rewrite (ti_N _ _ _ _ T). lia.
    + unfold is_vertex. rewrite (ti_N _ _ _ _ T). lia.
    + left; auto.
    + left; auto.
    + rewrite (ti_M _ _ _ _ T), (ti_cap _ _ _ _ T). lia.
    + rewrite E, bind_ret. cbn [negb C_OK Z.eqb Pos.eqb].
      assert (T' : tree_inv g0 g' (adj_insert adj u NIL 0 v NIL 0 a) (v + 1)) by (apply (tree_inv_step _ _ _ _ u _ _ a T); auto; lia).
      destruct (IH (S k) g' _ (v + 1) T') as (g2 & adj2 & E2 & T2 & F2); try lia.
      * rewrite (if_eflags _ _ (ad_frame _ _ _ _ _ _ _ A)). auto.
      * exists g2, adj2. rewrite E2. split; [|auto]. f_equal. f_equal. f_equal. lia.
Qed.

(** ** Counting: if all pairs are adjacent there are at least N(N-1)/2 edges *)
Lemma deg_all g adj v : rep g adj -> 1 <= v <= gN g -> (forall w, 1 <= w <= gN g -> w <> v -> adjacent g adj v w) ->
  gN g - 1 <= Z.of_nat (length (adj v)).
Proof.
  intros R Hv H. rewrite <- (map_length (enbr g)).
  assert (I : incl (filter (fun w => negb (w =? v)) (zrange 1 (Z.to_nat (gN g)))) (map (enbr g) (adj v))).
  { intros w Hw. apply filter_In in Hw. destruct Hw as [Hw Hne]. cbv beta in Hne. apply in_zrange in Hw.
    destruct (H w ltac:(lia) ltac:(lia)) as (e & He & <-). apply in_map. auto. }
  apply NoDup_incl_length in I; [|apply NoDup_filter, NoDup_zrange].
  assert (L : forall l, NoDup l -> (length l <= S (length (filter (fun w => negb (w =? v)%Z) l)))%nat).
  { clear. induction l as [|x l IH]; cbn [filter length]; intros Nd; [lia|]. inversion Nd; subst.
    destruct (Z.eqb_spec x v) as [->|Hx]; cbn [negb].
    - assert (E : filter (fun w => negb (w =? v)) l = l).
      { clear -H1. induction l as [|y l IH]; [auto|]. cbn [filter]. rewrite eqb_false_neq by (intros ->; apply H1; simpl; auto).
        cbn [negb]. f_equal. apply IH. intros H. apply H1. simpl; auto. }
      rewrite E. lia.
    - cbn [length]. specialize (IH ltac:(auto)). lia. }
  specialize (L (zrange 1 (Z.to_nat (gN g))) (NoDup_zrange _ _)). rewrite zrange_length in L. lia.
Qed.
Lemma sumdeg_mono adj n m : (n <= m)%nat -> sumdeg adj n <= sumdeg adj m.
Proof. induction 1; [lia|]. cbn [sumdeg]. lia. Qed.
Lemma sumdeg_low adj d : 0 <= d -> forall n, (forall v, 1 <= v <= Z.of_nat n -> d <= Z.of_nat (length (adj v))) -> Z.of_nat n * d <= sumdeg adj n.
Proof.
  intros Hd. induction n as [|n IH]; intros H; cbn [sumdeg]; [lia|].
  specialize (IH ltac:(intros; apply H; lia)). pose proof (H (Z.of_nat (S n)) ltac:(lia)). nia.
Qed.
Lemma complete_count g adj : rep g adj -> (forall u v, 1 <= u < v -> v <= gN g -> adjacent g adj u v) ->
  gN g * (gN g - 1) / 2 <= gM g.
Proof.
  intros R H. pose proof (st_N _ _ (rep_storage _ _ R)) as HN.
  assert (H' : forall v w, 1 <= v <= gN g -> 1 <= w <= gN g -> w <> v -> adjacent g adj v w).
  { intros v w Hv Hw Hne. destruct (Z_lt_le_dec v w) as [L|L]; [apply H; lia|].
    destruct (H w v ltac:(lia) ltac:(lia)) as (e & He & E). destruct (rep_twins _ _ R _ _ He) as [T1 T2].
    rewrite E in T2. exists (twin e). auto. }
  pose proof (rep_sumdeg _ _ R) as S.
  pose proof (sumdeg_mono adj (Z.to_nat (gN g)) (Z.to_nat (2 * gN g)) ltac:(lia)) as M1.
  pose proof (sumdeg_low adj (gN g - 1) ltac:(lia) (Z.to_nat (gN g))) as M2.
  rewrite Z2Nat.id in M2 by lia.
  specialize (M2 ltac:(intros v Hv; apply (deg_all g adj v R); auto; intros w Hw Hne; apply H'; lia)).
  apply Z.div_le_upper_bound; lia.
Qed.

(** A decision procedure for adjacency, to find a missing pair. *)
Definition adjb (g : graph) (adj : Z -> list Z) (u v : Z) : bool := existsb (fun e => enbr g e =? v) (adj u).
Lemma adjb_spec g adj u v : adjb g adj u v = true <-> adjacent g adj u v.
Proof.
  unfold adjb, adjacent. rewrite existsb_exists. split; intros (e & H1 & H2); exists e; split; auto; lia.
Qed.
Lemma missing_pair g adj : rep g adj -> gM g < gN g * (gN g - 1) / 2 ->
  exists u v, 1 <= u < v /\ v <= gN g /\ ~ adjacent g adj u v.
Proof.
  intros R H.
  set (L := list_prod (zrange 1 (Z.to_nat (gN g))) (zrange 1 (Z.to_nat (gN g)))).
  set (bad := fun p : Z * Z => (fst p <? snd p) && negb (adjb g adj (fst p) (snd p))).
  destruct (existsb bad L) eqn:E.
  - apply existsb_exists in E. destruct E as ([u v] & H1 & H2). unfold bad in H2. cbn [fst snd] in H2.
    apply in_prod_iff in H1. rewrite !in_zrange in H1. exists u, v. split; [lia|]. split; [lia|].
    rewrite <- adjb_spec. destruct (adjb g adj u v); [lia|discriminate].
  - exfalso. apply Z.lt_nge in H. apply H. apply (complete_count g adj R). intros u v Hu Hv.
    apply adjb_spec. destruct (adjb g adj u v) eqn:EA; [auto|]. exfalso.
    assert (X : existsb bad L = true); [|congruence]. apply existsb_exists. exists (u, v). split.
    + apply in_prod_iff. rewrite !in_zrange. lia.
    + unfold bad. cbn [fst snd]. rewrite EA. lia.
Qed.

(** ** The additional edges *)
Record rg_inv (g0 g : graph) (adj : Z -> list Z) : Prop := {
  ri_rep : rep g adj; ri_N : gN g = gN g0; ri_cap : gCap g = gCap g0;
  ri_simple : simple g adj; ri_prim : primary_edges g adj;
  ri_conn : forall w, 1 <= w <= gN g0 -> connected g adj 1 w;
  ri_flags : forall e, 2 <= e < gp_EdgeIndexBound g -> eflags g e = 0 }.

Lemma nbr_test g adj u v : rep g adj -> (forall e, 2 <= e < gp_EdgeIndexBound g -> eflags g e = 0) -> is_vertex g u ->
  gp_IsNeighbor g u v = Ret (if adjb g adj u v then C_TRUE else C_FALSE).
Proof.
  intros R Fl Hu. rewrite (is_neighbor_ok g adj) by (auto; apply R). f_equal.
  replace (existsb (arc_to g v) (adj u)) with (adjb g adj u v); [auto|].
  unfold adjb. assert (H : forall e, In e (adj u) -> eflags g e = 0).
  { intros e He. apply Fl. apply (ch_range _ _ (rep_chains _ _ R) u). auto. }
  induction (adj u) as [|e l IH]; [auto|]. cbn [existsb].
  rewrite IH by (intros; apply H; simpl; auto). f_equal. unfold arc_to. rewrite (H e) by (simpl; auto).
  change (Z.land 0 DIR_MASK =? DIR_INONLY) with false. cbn [negb]. now rewrite andb_true_r.
Qed.

Lemma rg_step g0 g adj u v : rg_inv g0 g adj -> 1 <= u < v -> v <= gN g0 -> ~ adjacent g adj u v -> gM g < gCap g / 2 ->
  exists g' adj', gp_AddEdge g u 0 v 0 = Ret (g', C_OK) /\ rg_inv g0 g' adj' /\ gM g' = gM g + 1.
Proof.
  intros I Hu Hv NA HM.
  assert (Pu : primary g u) by (unfold primary; rewrite (ri_N _ _ _ I); lia).
  assert (Pv : primary g v) by (unfold primary; rewrite (ri_N _ _ _ I); lia).
  destruct (add_edge_in g adj u 0 v 0 (ri_rep _ _ _ I) (prim_vertex _ _ Pu) (prim_vertex _ _ Pv)) as (g' & a & E & A); auto; try (left; reflexivity).
  pose proof (ad_frame _ _ _ _ _ _ _ A) as F.
  exists g', (adj_insert adj u NIL 0 v NIL 0 a). split; [auto|]. split; [|apply F]. constructor.
  - apply A.
  - rewrite (if_N _ _ F). apply I.
  - rewrite (if_cap _ _ F). apply I.
  - eapply simple_added; [apply I|apply I| |exact NA|exact A]. lia.
  - eapply primary_added; [apply I|exact Pu|exact Pv|exact A].
  - intros w Hw. eapply connected_added; [exact A|]. apply I. auto.
  - unfold gp_EdgeIndexBound. rewrite (if_cap _ _ F), (if_eflags _ _ F). apply I.
Qed.

Definition rg_post (g0 : graph) (M : Z) (p : graph * nat * Z) : Prop :=
  snd p = C_OK /\ exists adj, rg_inv g0 (fst (fst p)) adj /\ gM (fst (fst p)) = M.

Lemma extra_pc rnd g0 M : stream_ok rnd -> gN g0 <= INT_MAX -> M <= gCap g0 / 2 -> forall n k g adj m,
  rg_inv g0 g adj -> gM g = m -> (m < M -> 2 <= gN g0) -> pc (extra_edges n rnd k g m M) (rg_post g0 (Z.max m M)).
Proof.
  intros St HN HM. induction n as [|n IH]; intros k g adj m I Hm H2; cbn [extra_edges]; [exact Logic.I|].
  destruct (m <? M) eqn:E.
  - specialize (H2 ltac:(lia)). rewrite (ri_N _ _ _ I).
    rewrite random_ok, bind_ret by (auto; lia). pose proof (pick_range (rnd k) 1 (gN g0 - 1) ltac:(lia)). set (u := pick _ _ _) in *.
    rewrite random_ok, bind_ret by (auto; lia). pose proof (pick_range (rnd (S k)) (u + 1) (gN g0) ltac:(lia)). set (v := pick _ (u + 1) _) in *.
    rewrite (nbr_test g adj) by (first [apply I | unfold is_vertex; rewrite (ri_N _ _ _ I); lia]). rewrite bind_ret.
    destruct (adjb g adj u v) eqn:EA; cbn [negb C_TRUE C_FALSE Z.eqb].
    + apply IH with adj; auto.
    + assert (NA : ~ adjacent g adj u v) by (rewrite <- adjb_spec, EA; discriminate).
      destruct (rg_step g0 g adj u v I) as (g' & adj' & E' & I' & M'); auto; try lia; [rewrite (ri_cap _ _ _ I); lia|].
      rewrite E', bind_ret. cbn [negb C_OK Z.eqb Pos.eqb].
      replace (Z.max m M) with (Z.max (m + 1) M) by lia. apply IH with adj'; auto; lia.
  - cbn [pc]. split; [auto|]. exists adj. cbn [fst]. split; [auto|lia].
Qed.

Lemma extra_edges_more rnd : forall n n' k g m M r, (n <= n')%nat -> extra_edges n rnd k g m M = Ret r -> extra_edges n' rnd k g m M = Ret r.
Proof.
  induction n as [|n IH]; intros n' k g m M r Hn H; [discriminate|]. destruct n' as [|n']; [lia|].
  cbn [extra_edges] in *. destruct (m <? M); [|auto].
  destruct (_GetRandomNumber _ 1 _) as [u| |]; cbn [bind] in *; try discriminate.
  destruct (_GetRandomNumber _ (u + 1) _) as [v| |]; cbn [bind] in *; try discriminate.
  destruct (gp_IsNeighbor g u v) as [b| |]; cbn [bind] in *; try discriminate.
  destruct (negb (b =? 0)); [apply IH; auto; lia|].
  destruct (gp_AddEdge g u 0 v 0) as [[g' s]| |]; cbn [bind] in *; try discriminate.
  destruct (negb (s =? C_OK)); [auto|apply IH; auto; lia].
Qed.

Lemma extra_term rnd g0 s M : stream_ok rnd -> gN g0 <= INT_MAX -> M <= gCap g0 / 2 -> M <= gN g0 * (gN g0 - 1) / 2 ->
  fair (gN g0) s rnd -> 2 <= gN g0 -> forall d j g adj m,
  rg_inv g0 g adj -> gM g = m -> M - m <= Z.of_nat d -> exists n r, extra_edges n rnd (s + 2 * j) g m M = Ret r.
Proof.
  intros St HN HM HM2 Fr H2. induction d as [|d IH]; intros j g adj m I Hm Hd.
  - exists 1%nat. cbn [extra_edges]. replace (m <? M) with false by lia. eauto.
  - destruct (Z_lt_le_dec m M) as [L|L].
    2: { exists 1%nat. cbn [extra_edges]. replace (m <? M) with false by lia. eauto. }
    destruct (missing_pair g adj (ri_rep _ _ _ I)) as (u & v & Hu & Hv & NA); [rewrite (ri_N _ _ _ I); lia|].
    rewrite (ri_N _ _ _ I) in Hv.
    destruct (Fr u v Hu Hv j) as (i & Hi & P1 & P2).
    remember (i - j)%nat as t eqn:Et. revert j Hi Et. induction t as [|t IHt]; intros j Hi Et.
    + assert (i = j) by lia. subst i.
      destruct (rg_step g0 g adj u v I) as (g' & adj' & E' & I' & M'); auto; try lia; [rewrite (ri_cap _ _ _ I); lia|].
      destruct (IH (S j) g' adj' (m + 1) I' ltac:(lia) ltac:(lia)) as (n & r & En).
      exists (S n), r. cbn [extra_edges]. replace (m <? M) with true by lia.
      rewrite (ri_N _ _ _ I). rewrite random_ok, bind_ret by (auto; lia). rewrite P1.
      rewrite random_ok, bind_ret by (auto; lia). replace (S (s + 2 * j))%nat with (s + 2 * j + 1)%nat by lia. rewrite P2.
      rewrite (nbr_test g adj) by (first [apply I | unfold is_vertex; rewrite (ri_N _ _ _ I); lia]). rewrite bind_ret.
      replace (adjb g adj u v) with false by (symmetry; apply not_true_is_false; rewrite adjb_spec; auto).
      cbn [negb C_FALSE Z.eqb]. rewrite E', bind_ret. cbn [negb C_OK Z.eqb Pos.eqb].
      replace (S (s + 2 * j + 1))%nat with (s + 2 * S j)%nat by lia. auto.
    + specialize (IHt (S j) ltac:(lia) ltac:(lia)).
      set (u1 := pick (rnd (s + 2 * j)%nat) 1 (gN g0 - 1)). set (v1 := pick (rnd (S (s + 2 * j))) (u1 + 1) (gN g0)).
      pose proof (pick_range (rnd (s + 2 * j)%nat) 1 (gN g0 - 1) ltac:(lia)) as R1. fold u1 in R1.
      pose proof (pick_range (rnd (S (s + 2 * j))) (u1 + 1) (gN g0) ltac:(lia)) as R2. fold v1 in R2.
      destruct (adjb g adj u1 v1) eqn:EA.
      * destruct IHt as (n & r & En). exists (S n), r. cbn [extra_edges]. replace (m <? M) with true by lia.
        rewrite (ri_N _ _ _ I). rewrite random_ok, bind_ret by (auto; lia). fold u1.
        rewrite random_ok, bind_ret by (auto; lia). fold v1.
        rewrite (nbr_test g adj) by (first [apply I | unfold is_vertex; rewrite (ri_N _ _ _ I); lia]). rewrite bind_ret, EA.
        cbn [negb C_TRUE Z.eqb]. replace (S (S (s + 2 * j)))%nat with (s + 2 * S j)%nat by lia. auto.
      * assert (NA1 : ~ adjacent g adj u1 v1) by (rewrite <- adjb_spec, EA; discriminate).
        destruct (rg_step g0 g adj u1 v1 I) as (g' & adj' & E' & I' & M'); auto; try lia; [rewrite (ri_cap _ _ _ I); lia|].
        destruct (IH (S j) g' adj' (m + 1) I' ltac:(lia) ltac:(lia)) as (n & r & En).
        exists (S n), r. cbn [extra_edges]. replace (m <? M) with true by lia.
        rewrite (ri_N _ _ _ I). rewrite random_ok, bind_ret by (auto; lia). fold u1.
        rewrite random_ok, bind_ret by (auto; lia). fold v1.
        rewrite (nbr_test g adj) by (first [apply I | unfold is_vertex; rewrite (ri_N _ _ _ I); lia]). rewrite bind_ret, EA.
        cbn [negb C_FALSE Z.eqb]. rewrite E', bind_ret. cbn [negb C_OK Z.eqb Pos.eqb].
        replace (S (S (s + 2 * j)))%nat with (s + 2 * S j)%nat by lia. auto.
Qed.

(** ** gp_CreateRandomGraph *)
(** How many edges the generator aims at, given the draw r. *)
Definition target (g : graph) (r : Z) : Z :=
  Z.max (gN g - 1) (Z.min (pick r (7 * gN g / 8) (gCap g / 2)) (gN g * (gN g - 1) / 2)).
Definition random_post (g0 : graph) (M : Z) (p : graph * Z) : Prop :=
  snd p = C_OK /\ exists adj, rg_inv g0 (fst p) adj /\ gM (fst p) = M.

Definition N_fits (g : graph) : Prop := gN g * (gN g - 1) <= INT_MAX.

Lemma target_draw g r : empty_graph g -> gN g - 1 <= gCap g / 2 ->
  pick r (7 * gN g / 8) (gCap g / 2) <= gCap g / 2.
Proof.
  intros Eg Hc. apply pick_range. pose proof (st_N _ _ (rep_storage _ _ (eg_rep _ Eg))).
  assert (7 * gN g / 8 < gN g); [|lia]. apply Z.div_lt_upper_bound; lia.
Qed.

Lemma create_random_unfold rnd g : empty_graph g -> stream_ok rnd -> N_fits g -> gCap g / 2 < INT_MAX -> 7 * gN g <= INT_MAX ->
  gN g - 1 <= gCap g / 2 ->
  exists g1 adj1, rg_inv g g1 adj1 /\ gM g1 = gN g - 1 /\ forall fuel,
    gp_CreateRandomGraph fuel rnd g =
    (let M := Z.min (pick (rnd (Z.to_nat (gN g - 1))) (7 * gN g / 8) (gCap g / 2)) (gN g * (gN g - 1) / 2) in
     '(g', _, r) <- extra_edges fuel rnd (Z.to_nat (gN g)) g1 (gN g - 1) M ;; Ret (g', r)).
Proof.
  intros Eg St Nf Cf Sf Hc. pose proof (st_N _ _ (rep_storage _ _ (eg_rep _ Eg))) as HN.
  unfold N_fits in Nf.
  destruct (tree_edges_ok rnd g St ltac:(nia) Hc (Z.to_nat (gN g - 1)) 0 g no_adj 2) as (g1 & adj1 & E & T & Fl); auto; try lia.
  { apply tree_inv_start; [apply Eg|apply empty_M, Eg]. }
  exists g1, adj1. split; [|split].
  - constructor; try apply T.
    + intros w Hw. apply T. lia.
    + rewrite Fl. unfold gp_EdgeIndexBound. rewrite (ti_cap _ _ _ _ T). apply Eg.
  - rewrite (ti_M _ _ _ _ T). lia.
  - intros fuel. unfold gp_CreateRandomGraph. cbv zeta. rewrite E, bind_ret. cbn [negb C_OK Z.eqb Pos.eqb].
    rewrite guard_true by (unfold int_ok, INT_MAX in *; lia).
    rewrite (ti_cap _ _ _ _ T). cbn [Nat.add].
    rewrite random_ok, bind_ret.
    2: apply St.
    2: { pose proof (Z.div_pos (7 * gN g) 8 ltac:(lia) ltac:(lia)). lia. }
    rewrite guard_true by (unfold int_ok, INT_MAX in *; nia).
    replace (S (Z.to_nat (gN g - 1))) with (Z.to_nat (gN g)) by lia.
    set (p := pick _ _ _). set (q := gN g * (gN g - 1) / 2).
    replace (if p >? q then q else p) with (Z.min p q) by (destruct (p >? q) eqn:?; lia). reflexivity.
Qed.

Lemma two_of_target g m : 1 <= gN g -> m < gN g * (gN g - 1) / 2 -> gN g - 1 = m -> 2 <= gN g.
Proof. intros H1 H2 H3. destruct (Z.eq_dec (gN g) 1) as [E|]; [|lia]. rewrite E in *. change (1 * (1 - 1) / 2) with 0 in H2. lia. Qed.

Lemma create_random_pc fuel rnd g : empty_graph g -> stream_ok rnd -> N_fits g -> gCap g / 2 < INT_MAX -> 7 * gN g <= INT_MAX ->
  gN g - 1 <= gCap g / 2 ->
  pc (gp_CreateRandomGraph fuel rnd g) (random_post g (target g (rnd (Z.to_nat (gN g - 1))))).
Proof.
  intros Eg St Nf Cf Sf Hc. destruct (create_random_unfold rnd g Eg St Nf Cf Sf Hc) as (g1 & adj1 & I & HM & E).
  rewrite E. cbv zeta. pose proof (st_N _ _ (rep_storage _ _ (eg_rep _ Eg))) as HN.
  pose proof (target_draw g (rnd (Z.to_nat (gN g - 1))) Eg Hc).
  apply pc_bind. eapply pc_mono.
  - apply (extra_pc rnd g) with adj1; auto.
    + unfold N_fits in Nf. nia.
    + lia.
    + intros L. eapply (two_of_target g (gN g - 1)); auto. lia.
  - intros [[g' k] r] (H1 & adj & I' & M'). cbn [fst snd pc] in *. split; auto. exists adj. split; auto.
Qed.

Lemma create_random_term rnd g : empty_graph g -> stream_ok rnd -> N_fits g -> gCap g / 2 < INT_MAX -> 7 * gN g <= INT_MAX ->
  gN g - 1 <= gCap g / 2 -> fair (gN g) (Z.to_nat (gN g)) rnd -> 
  exists fuel p, forall fuel', (fuel <= fuel')%nat -> gp_CreateRandomGraph fuel' rnd g = Ret p.
Proof.
  intros Eg St Nf Cf Sf Hc Fr. destruct (create_random_unfold rnd g Eg St Nf Cf Sf Hc) as (g1 & adj1 & I & HM & E).
  pose proof (st_N _ _ (rep_storage _ _ (eg_rep _ Eg))) as HN.
  pose proof (target_draw g (rnd (Z.to_nat (gN g - 1))) Eg Hc).
  set (M := Z.min (pick (rnd (Z.to_nat (gN g - 1))) (7 * gN g / 8) (gCap g / 2)) (gN g * (gN g - 1) / 2)) in *.
  assert (X : exists n r, extra_edges n rnd (Z.to_nat (gN g)) g1 (gN g - 1) M = Ret r).
  { destruct (Z_lt_le_dec (gN g - 1) M) as [L|L].
    - assert (X : exists n r, extra_edges n rnd (Z.to_nat (gN g) + 2 * 0)%nat g1 (gN g - 1) M = Ret r).
      { apply (extra_term rnd g (Z.to_nat (gN g)) M St ltac:(unfold N_fits in Nf; nia)) with (d := Z.to_nat (M - (gN g - 1))) (adj := adj1); auto; try lia.
        apply (two_of_target g (gN g - 1)); auto; lia. }
      replace (Z.to_nat (gN g) + 2 * 0)%nat with (Z.to_nat (gN g)) in X by lia. exact X.
    - exists 1%nat. cbn [extra_edges]. replace (gN g - 1 <? M) with false by lia. eauto. }
  destruct X as (n & [[g' k] r] & X). exists n, (g', r). intros n' Hn'.
  rewrite E. cbv zeta. fold M. now rewrite (extra_edges_more _ _ _ _ _ _ _ _ Hn' X).
Qed.
