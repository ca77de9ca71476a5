(** * TestP4: the subgraph test. *)
From Coq Require Import ZifyBool.
From Verif Require Import Base BaseP GraphRec GraphM GraphSpec GSimp LinkP GraphP GraphP2 GraphP3 GraphP5
  DFSM DFSSpec DFSP DFSP2 DFSP3 DFSP4 RandP2 TestM TestSpec OrbitP TestP TestP2 TestP3.

Lemma walks_suffix nx l1 l2 : walks nx (l1 ++ l2) -> walks nx l2.
Proof. induction l1 as [|a l1 IH]; cbn; auto. intros (_ & H); auto. Qed.

Section Sub.
Variables (s : graph) (sadj : Z -> list Z) (g0 : graph) (gadj : Z -> list Z).
Hypothesis Rs : rep s sadj.
Hypothesis Ps : primary_edges s sadj.
Hypothesis Rg : rep g0 gadj.
Hypothesis Pg : primary_edges g0 gadj.
Hypothesis EN : gN s = gN g0.

Lemma nbr_prim g adj v e : rep g adj -> primary_edges g adj -> In e (adj v) -> primary g (enbr g e).
Proof. intros R P H. apply (rep_twins _ _ R) in H as [_ H]. eapply P; eauto. Qed.

Lemma prim_s v : primary s v <-> primary g0 v.
Proof. unfold primary; now rewrite EN. Qed.

Lemma arc_inE_s v e : In e (sadj v) -> inE s e = true.
Proof. intros H. apply (ch_range _ _ (rep_chains _ _ Rs)) in H. apply inE_true; lia. Qed.

Lemma mark_loop_ok l : forall n g deg, (length l < n)%nat -> vertex_marks_only g0 g -> walks (enext s) l ->
  (forall e, In e l -> inE s e = true /\ e <> NIL /\ primary s (enbr s e)) ->
  wp (sub_mark_loop n s g (hd NIL l) deg) (fun '(g', r) => vertex_marks_only g0 g' /\ r = Some (deg + Z.of_nat (length l)) /\
    forall x, visited g' x = true <-> visited g x = true \/ exists e, In e l /\ enbr s e = x).
Proof.
  induction l as [|e l IH]; intros n g deg Hn Fr W Hl; (destruct n as [|n]; [cbn [length] in Hn; lia|]); cbn [sub_mark_loop hd length] in *.
  - change (NIL =? NIL) with true. cbv iota. cbn [wp]. split; auto. split; [f_equal; lia|].
    intros x. split; auto. intros [H|(e & [] & _)]; auto.
  - destruct (Hl e) as (IE & NE & PE); [now left|]. rewrite eqb_false_neq by auto.
    rewrite get_nbr by auto. cbn [bind].
    rewrite eqb_false_neq by (unfold primary, NIL in *; lia).
    assert (PE' : primary g0 (enbr s e)) by now apply prim_s.
    rewrite set_visited_ok by (apply (vm_inV g0); auto). cbn [bind]. rewrite get_next by auto. cbn [bind].
    destruct W as [W1 W2]. rewrite W1.
    eapply wp_mono; [apply IH; auto; try lia|].
    + eapply vm_trans; [eauto|apply vm_mark]. unfold primary in *. now rewrite (vm_N _ _ Fr).
    + intros e' He'. apply Hl. now right.
    + intros (g', r) (F' & -> & V'). split; auto. split; [f_equal; lia|].
      intros x. rewrite V', visited_markv. cbn [In]. destruct (Z.eqb_spec x (enbr s e)) as [->|Nx].
      * split; auto. intros _. right. exists e. auto.
      * split; (intros [H|(e' & H1 & H2)]; [now left|right; exists e'; split; auto]).
        destruct H1; auto. subst; tauto.
Qed.

Lemma unmark_loop_ok l : forall n g, (length l < n)%nat -> vertex_marks_only g0 g -> walks (enext g0) l ->
  (forall e, In e l -> inE g0 e = true /\ e <> NIL /\ primary g0 (enbr g0 e)) ->
  wp (sub_unmark_loop n g (hd NIL l)) (fun '(g', ok) => vertex_marks_only g0 g' /\ ok = true /\
    forall x, visited g' x = true <-> visited g x = true /\ ~ exists e, In e l /\ enbr g0 e = x).
Proof.
  induction l as [|e l IH]; intros n g Hn Fr W Hl; (destruct n as [|n]; [cbn [length] in Hn; lia|]); cbn [sub_unmark_loop hd length] in *.
  - change (NIL =? NIL) with true. cbv iota. cbn [wp]. split; auto. split; auto.
    intros x. split; [|tauto]. intros H; split; auto. intros (e & [] & _).
  - destruct (Hl e) as (IE & NE & PE); [now left|]. rewrite eqb_false_neq by auto.
    assert (IEg : forall b, inE (mark_v g (enbr g0 e) b) e = true) by (intros b; unfold inE, gp_EdgeIndexBound in *; gsimp; cbn; rewrite (vm_cap _ _ Fr); auto).
    assert (IE' : inE g e = true) by exact (IEg true).
    rewrite get_nbr by auto. cbn [bind]. rewrite (vm_enbr _ _ Fr).
    rewrite eqb_false_neq by (unfold primary, NIL in *; lia).
    rewrite clear_visit_ok by (apply (vm_inV g0); auto). cbn [bind]. rewrite get_next by auto. cbn [bind].
    destruct W as [W1 W2]. replace (enext (mark_v g (enbr g0 e) false) e) with (hd NIL l) by (change (hd NIL l = enext g e); rewrite (vm_enext _ _ Fr); auto).
    eapply wp_mono; [apply IH; auto; try lia|].
    + eapply vm_trans; [eauto|apply vm_mark]. unfold primary in *. now rewrite (vm_N _ _ Fr).
    + intros e' He'. apply Hl. now right.
    + intros (g', r) (F' & -> & V'). split; auto. split; auto.
      intros x. rewrite V', visited_markv. cbn [In]. destruct (Z.eqb_spec x (enbr g0 e)) as [->|Nx].
      * split; [intros [H _]; discriminate|]. intros [_ H]. exfalso; apply H. exists e; auto.
      * split; intros [H1 H2]; (split; [auto|]); intros (e' & H3 & H4); apply H2; exists e'; auto.
        split; auto. destruct H3; auto. subst; tauto.
Qed.

Lemma check_loop_ok g l : vertex_marks_only g0 g -> forall n, (length l < n)%nat -> walks (enext s) l ->
  (forall e, In e l -> inE s e = true /\ e <> NIL /\ primary s (enbr s e)) ->
  exists b, sub_check_loop n s g (hd NIL l) = Ret b /\ (b = true <-> forall e, In e l -> visited g (enbr s e) = false).
Proof.
  intros Fr. induction l as [|e l IH]; intros n Hn W Hl; (destruct n as [|n]; [cbn [length] in Hn; lia|]); cbn [sub_check_loop hd length] in *.
  - change (NIL =? NIL) with true. cbv iota. eexists; split; [reflexivity|]. split; auto. intros _ e [].
  - destruct (Hl e) as (IE & NE & PE); [now left|]. rewrite eqb_false_neq by auto.
    rewrite get_nbr by auto. cbn [bind]. rewrite get_visited by (apply (vm_inV g0); auto; now apply prim_s). cbn [bind].
    fold (visited g (enbr s e)). destruct (visited g (enbr s e)) eqn:Ev.
    + eexists; split; [reflexivity|]. split; [discriminate|]. intros H. rewrite H in Ev; [discriminate|now left].
    + rewrite get_next by auto. cbn [bind]. destruct W as [W1 W2]. rewrite W1.
      destruct (IH n) as (b & -> & Hb); auto; [lia|intros e' He'; apply Hl; now right|].
      exists b; split; auto. rewrite Hb. split; intros H; [intros x [<-|Hx]; auto|intros x Hx; apply H; now right].
Qed.

(** every neighbour of v in the subgraph is one in the graph *)
Definition subv (v : Z) : Prop := forall e, In e (sadj v) -> exists e', In e' (gadj v) /\ enbr g0 e' = enbr s e.

Lemma subv_dec v : {subv v} + {~ subv v}.
Proof.
  destruct (forallb (fun e => existsb (fun e' => enbr g0 e' =? enbr s e) (gadj v)) (sadj v)) eqn:E; [left|right].
  - intros e He. rewrite forallb_forall in E. specialize (E e He). apply existsb_exists in E as (e' & H1 & H2).
    apply Z.eqb_eq in H2. eauto.
  - intros H. apply Bool.not_true_iff_false in E. apply E. apply forallb_forall. intros e He.
    destruct (H e He) as (e' & H1 & H2). apply existsb_exists. exists e'. split; auto. now apply Z.eqb_eq.
Qed.

Lemma sub_vertex_ok : forall n v g deg, vertex_marks_only g0 g -> 1 <= v -> v + Z.of_nat n <= gN g0 + 1 ->
  (forall x, primary g0 x -> visited g x = false) ->
  wp (sub_vertex_loop n s g v deg) (fun '(g', r) => vertex_marks_only g0 g' /\
    match r with
    | None => exists u, v <= u < v + Z.of_nat n /\ ~ subv u
    | Some d => (forall u, v <= u < v + Z.of_nat n -> subv u) /\ d = deg + Z.of_nat (length (flat_map sadj (zrange v n)))
    end).
Proof.
  induction n as [|n IH]; intros v g deg Fr Hv Hb V; cbn [sub_vertex_loop].
  - cbn [wp]. split; auto. split; [intros u Hu; lia|]. cbn. lia.
  - assert (Pv : primary g0 v) by (unfold primary; lia). pose proof Pv as Pv'. apply prim_s in Pv'.
    assert (Ls : forall e, In e (sadj v) -> inE s e = true /\ e <> NIL /\ primary s (enbr s e)).
    { intros e He. split; [eapply arc_inE_s; eauto|]. split; [intros ->; exact (rep_nonil _ _ _ Rs He)|]. eapply nbr_prim; eauto. }
    assert (Lg : forall e, In e (gadj v) -> inE g0 e = true /\ e <> NIL /\ primary g0 (enbr g0 e)).
    { intros e He. split; [|split; [intros ->; exact (rep_nonil _ _ _ Rg He)|eapply nbr_prim; eauto]].
      apply (ch_range _ _ (rep_chains _ _ Rg)) in He. apply inE_true; lia. }
    pose proof (chains_walks _ _ v (rep_chains _ _ Rs)) as Ws. pose proof (chains_walks _ _ v (rep_chains _ _ Rg)) as Wg.
    pose proof (adj_len _ _ v (rep_chains _ _ Rs)) as As. pose proof (adj_len _ _ v (rep_chains _ _ Rg)) as Ag.
    rewrite (first_ok _ _ _ (rep_chains _ _ Rs) (prim_is_vertex _ _ Pv')). cbn [bind].
    apply wp_bind. eapply wp_mono; [apply mark_loop_ok; eauto|].
    intros (g1, r1) (F1 & -> & V1). cbv beta iota.
    rewrite (first_ok g1 gadj v) by (first [apply (vm_rep _ _ _ F1 Rg)|apply prim_is_vertex; unfold primary in *; rewrite (vm_N _ _ F1); auto]).
    cbn [bind]. apply wp_bind. eapply wp_mono.
    { apply (unmark_loop_ok (gadj v) (efuel g1) g1); auto. unfold efuel, gp_EdgeIndexBound in *. rewrite (vm_cap _ _ F1). auto. }
    intros (g2, ok2) (F2 & -> & V2). cbn [negb].
    destruct (check_loop_ok g2 (sadj v) F2 (efuel s)) as (b & -> & Hbb); auto. cbn [bind].
    assert (Q : b = true <-> subv v).
    { rewrite Hbb. split.
      - intros H e He. specialize (H e He).
        destruct (existsb (fun e' => enbr g0 e' =? enbr s e) (gadj v)) eqn:Ex.
        + apply existsb_exists in Ex as (e' & H1 & H2). apply Z.eqb_eq in H2. eauto.
        + exfalso. assert (visited g2 (enbr s e) = true); [|congruence]. apply V2. split.
          * apply V1. right. exists e; auto.
          * intros (e' & H1 & H2). apply Bool.not_true_iff_false in Ex. apply Ex. apply existsb_exists. exists e'. split; auto. now apply Z.eqb_eq.
      - intros H e He. destruct (visited g2 (enbr s e)) eqn:Ev; auto. exfalso.
        apply V2 in Ev as [_ Ev]. apply Ev. destruct (H e He) as (e' & ? & ?). exists e'; auto. }
    destruct b; cbn [negb].
    + assert (Sv : subv v) by now apply Q.
      assert (V3 : forall x, primary g0 x -> visited g2 x = false).
      { intros x Hx. destruct (visited g2 x) eqn:Ev; auto. exfalso. apply V2 in Ev as [Ev1 Ev2].
        apply V1 in Ev1 as [Ev1|(e & He & <-)]; [rewrite V in Ev1; auto; discriminate|].
        apply Ev2. destruct (Sv e He) as (e' & ? & ?). exists e'; auto. }
      eapply wp_mono; [apply IH; auto; lia|].
      intros (g3, [d|]) (F3 & H3); (split; [auto|]).
      * destruct H3 as [H3 ->]. split.
        -- intros u Hu. destruct (Z.eq_dec u v) as [->|]; auto. apply H3. lia.
        -- replace (zrange v (S n)) with (v :: zrange (v + 1) n).
           2:{ unfold zrange. cbn [seq map]. f_equal; [lia|]. rewrite <- seq_shift, map_map. apply map_ext; intros; lia. }
           cbn [flat_map]. rewrite app_length. lia.
      * destruct H3 as (u & Hu & Nu). exists u. split; [lia|auto].
    + cbn [wp]. split; auto. exists v. split; [lia|]. intros H. apply Q in H. discriminate.
Qed.

Lemma prim_sum : Z.of_nat (length (flat_map sadj (zrange 1 (Z.to_nat (gN s))))) = 2 * gM s.
Proof.
  rewrite <- (rep_sumdeg s sadj Rs). rewrite sumdeg_flat. f_equal.
  pose proof (st_N _ _ (rep_storage _ _ Rs)).
  replace (Z.to_nat (2 * gN s)) with (Z.to_nat (gN s) + Z.to_nat (gN s))%nat by lia.
  assert (E : zrange 1 (Z.to_nat (gN s) + Z.to_nat (gN s)) = zrange 1 (Z.to_nat (gN s)) ++ zrange (1 + gN s) (Z.to_nat (gN s))).
  { unfold zrange. rewrite seq_app, map_app. f_equal. cbn [Nat.add].
    rewrite <- (Nat.add_0_r (Z.to_nat (gN s))) at 1. 
    assert (forall a b n, seq (a + b) n = map (fun i => (a + i)%nat) (seq b n)) as SS.
    { clear. intros a b n; revert b; induction n; intros b; cbn; auto. f_equal. rewrite <- IHn. f_equal. lia. }
    rewrite SS, map_map. apply map_ext. intros; lia. }
  rewrite E, flat_map_app, app_length.
  replace (flat_map sadj (zrange (1 + gN s) (Z.to_nat (gN s)))) with (@nil Z); [cbn; lia|].
  symmetry. apply (incl_l_nil). intros x Hx. apply in_flat_map in Hx as (u & Hu & Hx).
  apply in_zrange in Hu. apply Ps in Hx. unfold primary in Hx. lia.
Qed.

(** the part of _TestSubgraph between the sorts *)
Lemma sub_core_ok : exists g1 g' r, _ClearVertexVisitedFlags g0 false = Ret g1 /\
  sub_vertex_loop (Z.to_nat (gN s)) s g1 1 0 = Ret (g', r) /\ vertex_marks_only g0 g' /\
  (r = None \/ r = Some (2 * gM s)) /\
  (r <> None <-> forall v e, In e (sadj v) -> exists e', In e' (gadj v) /\ enbr g0 e' = enbr s e).
Proof.
  pose proof (st_N _ _ (rep_storage _ _ Rg)) as HN.
  destruct (clear_all_ok g0) as (g1 & E1 & F1 & V1); [lia|].
  exists g1. pose proof (sub_vertex_ok (Z.to_nat (gN s)) 1 g1 0 F1) as W.
  assert (W' := W ltac:(lia) ltac:(lia) V1). apply wp_inv in W' as ((g' & r) & E2 & F2 & H2).
  exists g', r. split; [auto|]. split; [auto|]. split; [auto|].
  destruct r as [d|].
  - destruct H2 as [H2 ->]. rewrite prim_sum. split; [now right|]. split; [|discriminate].
    intros _ v e He. pose proof (Ps _ _ He) as Pv. unfold primary in Pv. apply (H2 v); auto. lia.
  - split; [now left|]. split; [congruence|]. intros H. exfalso.
    destruct H2 as (u & Hu & Nu). apply Nu. intros e He. auto.
Qed.
End Sub.

(** ** With the sorting of a graph before and after *)
Lemma vm_same g h : vertex_marks_only g h -> same_but_marks g h.
Proof.
  intros H. pose proof (vm_VI _ _ H) as HV.
  constructor; try (first [apply (vm_N _ _ H)|apply (vm_M _ _ H)|apply (vm_cap _ _ H)|apply (vm_enext _ _ H)|apply (vm_eprev _ _ H)
    |apply (vm_eflags _ _ H)|apply (vm_holes _ _ H)|apply (vm_holesCap _ _ H)|apply (vm_stack _ _ H)|apply (vm_stackCap _ _ H)
    |apply (vm_iflags _ _ H)|apply (vm_embed _ _ H)|apply (vm_X _ _ H)]).
  - intros; now rewrite (vm_vfirst _ _ H).
  - intros; now rewrite (vm_vlast _ _ H).
  - intros; now rewrite (vm_vindex _ _ H).
  - intros; now rewrite (vm_vflags _ _ H).
  - intros v Hv. apply (vm_virtual _ _ H). unfold primary; lia.
  - intros v Hv. unfold par. rewrite HV. tauto.
  - intros; now rewrite (vm_enbr _ _ H).
Qed.
Lemma sv_same g h : same_but_visited g h -> same_but_marks g h.
Proof.
  intros []. constructor; auto.
  intros v Hv. destruct (Z_le_gt_dec v (gN g)).
  - rewrite sv_flags by (unfold primary, is_vertex in *; lia). apply Z.bits_inj'. intros n Hn. rewrite !Z.ldiff_spec, Z.lor_spec.
    destruct (Z.testbit VERTEX_VISITED_MASK n), (Z.testbit (vflags g v) n); auto.
  - rewrite sv_vflags; auto. unfold is_vertex in *; lia.
Qed.

Lemma lor_ldiff a b m : Z.ldiff a m = Z.ldiff b m -> Z.lor a m = Z.lor b m.
Proof.
  intros H. apply Z.bits_inj'. intros n Hn. assert (T : Z.testbit (Z.ldiff a m) n = Z.testbit (Z.ldiff b m) n) by now rewrite H.
  rewrite !Z.ldiff_spec in T. rewrite !Z.lor_spec. destruct (Z.testbit a n), (Z.testbit b n), (Z.testbit m n); cbn in *; auto.
Qed.

(** sorting back after only marks changed *)
Lemma relabelled_marks h h' k : vertex_marks_only h h' -> relabelled (vindex h') h' k -> relabelled (vindex h) h k.
Proof.
  intros H RL. rewrite (vm_vindex _ _ H) in RL.
  assert (P : forall v, primary h' v <-> primary h v) by (intros v; unfold primary; now rewrite (vm_N _ _ H)).
  assert (EB : gp_EdgeInUseIndexBound h' = gp_EdgeInUseIndexBound h)
    by (unfold gp_EdgeInUseIndexBound; now rewrite (vm_M _ _ H), (vm_holes _ _ H)).
  assert (Vf := vm_vflags _ _ H).
  destruct H, RL. constructor; try congruence.
  - intros v Hv. rewrite rl_first by now apply P. now rewrite vm_vfirst.
  - intros v Hv. rewrite rl_last by now apply P. now rewrite vm_vlast.
  - intros v Hv. apply rl_back. now apply P.
  - intros v Hv. rewrite rl_vflags by now apply P. now apply lor_ldiff.
  - intros v Hv. rewrite rl_parent by now apply P. unfold par. now rewrite vm_VI.
  - intros v Hv. rewrite <- vm_VI. apply rl_info. now apply P.
  - intros v Hv. assert (Hv' : ~ primary h' v) by now rewrite P.
    destruct (rl_virtual v Hv') as (-> & -> & -> & ->). rewrite vm_vfirst, vm_vlast, vm_vindex, vm_virtual by auto. auto.
  - intros e He. rewrite rl_enbr by (rewrite EB; auto). now rewrite vm_enbr.
  - intros e He. rewrite rl_unused by (rewrite EB; auto). now rewrite vm_enbr.
Qed.

Lemma vm_primary_edges g h adj : vertex_marks_only g h -> primary_edges g adj -> primary_edges h adj.
Proof. intros H P v e He. apply P in He. unfold primary in *. now rewrite (vm_N _ _ H). Qed.

(** a graph is sorted, marked and sorted back *)
Lemma sort_marks_sort g adj : rep g adj -> primary_edges g adj -> sort_state g -> is_sorted g = true ->
  exists h adj', gp_SortVertices g = Ret (h, C_OK) /\ rep h adj' /\ primary_edges h adj' /\ gN h = gN g /\ gM h = gM g /\
    is_sorted h = false /\
    (forall v, primary g v -> adj' (vindex g v) = adj v) /\ (forall v, ~ primary g v -> adj' v = []) /\
    (forall u, primary g u -> exists v, primary g v /\ vindex g v = u) /\
    (forall v e, In e (adj v) -> enbr h e = vindex g (enbr g e)) /\
    (forall h', vertex_marks_only h h' -> exists k, gp_SortVertices h' = Ret (k, C_OK) /\ same_but_visited g k).
Proof.
  intros R P SS E. destruct (SS E) as (S1 & S2 & S3 & S4).
  assert (Num : numbering g (vindex g)) by (split; auto).
  destruct (sort_ok g adj R P S1 Num S4) as (h & adj' & Eh & RL & Fl & R' & P' & A').
  assert (PN : forall v, primary h v <-> primary g v) by (intros v; unfold primary; now rewrite (rl_N _ _ _ RL)).
  exists h, adj'. split; [auto|]. split; [auto|]. split; [auto|]. split; [apply (rl_N _ _ _ RL)|]. split; [apply (rl_M _ _ _ RL)|].
  split.
  { unfold is_sorted in *. rewrite Fl. apply Bool.negb_true_iff in E. apply Bool.negb_false_iff. apply Z.eqb_eq. apply Z.eqb_neq in E.
    assert (T : Z.testbit (giflags g) 1 = true).
    { destruct (Z.testbit (giflags g) 1) eqn:T; auto. exfalso; apply E. apply Z.bits_inj'. intros n Hn. rewrite Z.land_spec, Z.bits_0.
      destruct (Z.eq_dec n 1) as [->|]; [rewrite T; auto|]. change 2 with (2 ^ 1). rewrite Z.pow2_bits_false by auto. apply Bool.andb_false_r. }
    apply Z.bits_inj'. intros n Hn. rewrite Z.land_spec, Z.bits_0, Z.lxor_spec. unfold FLAGS_SORTEDBYDFI.
    destruct (Z.eq_dec n 1) as [->|]; [rewrite T; auto|]. change 2 with (2 ^ 1). rewrite Z.pow2_bits_false by auto. apply Bool.andb_false_r. }
  split; [auto|]. split.
  { intros v Hv. destruct (adj' v) as [|e l] eqn:Ev; auto. exfalso. apply Hv. apply PN. apply (P' v e). rewrite Ev. now left. }
  split; [intros u Hu; eapply num_surj; eauto|].
  split.
  { intros v e He. assert (U : in_use g e) by (apply (rep_in_use _ _ _ R); eauto). rewrite (rl_enbr _ _ _ RL) by (destruct U; auto).
    pose proof (nbr_prim _ _ _ _ R P He) as Pn. rewrite eqb_false_neq; auto. unfold primary, NIL in *; lia. }
  intros h' Fr.
  assert (Num' : numbering h (vindex h)) by (eapply relabelled_numbering; eauto).
  destruct (sort_ok h' adj') as (k & adj'' & Ek & RLk & Flk & _).
  - eapply vm_rep; eauto.
  - eapply vm_primary_edges; eauto.
  - unfold searched. rewrite (vm_iflags _ _ Fr), Fl. intros H. apply S1.
    apply Z.bits_inj'. intros n Hn. assert (T := f_equal (fun x => Z.testbit x n) H). cbv beta in T.
    rewrite Z.land_spec, Z.lxor_spec, Z.bits_0 in T. rewrite Z.land_spec, Z.bits_0. unfold FLAGS_DFSNUMBERED, FLAGS_SORTEDBYDFI in *.
    destruct (Z.eq_dec n 0) as [->|]; [|change 1 with (2 ^ 0); rewrite Z.pow2_bits_false by auto; apply Bool.andb_false_r].
    change (Z.testbit 1 0) with true in *. change (Z.testbit 2 0) with false in T.
    rewrite Bool.xorb_false_r, Bool.andb_true_r in T. now rewrite T.
  - rewrite (vm_vindex _ _ Fr). destruct Num' as [N1 N2]. split.
    + intros v Hv. unfold primary in *. rewrite (vm_N _ _ Fr) in *. auto.
    + intros v w Hv Hw. unfold primary in *. rewrite (vm_N _ _ Fr) in *. auto.
  - intros v Hv Np. assert (Hv' : primary h v) by (unfold primary in *; now rewrite (vm_N _ _ Fr) in Hv).
    assert (primary h (par h' v)); [|unfold primary in *; now rewrite (vm_N _ _ Fr)].
    unfold par in *. rewrite (vm_VI _ _ Fr) in *. fold (par h v) in *.
    apply PN in Hv'. destruct (num_surj g Num v Hv') as (u & Hu & <-).
    rewrite (rl_parent _ _ _ RL) in * by auto. destruct (Z.eqb_spec (par g u) NIL); [congruence|]. apply PN. apply S2, S4; auto.
  - exists k. split; auto. eapply (relabelled_twice g adj h k); eauto.
    + eapply relabelled_marks; eauto.
    + now rewrite Flk, (vm_iflags _ _ Fr).
Qed.

Lemma sm_refl g : same_but_marks g g.
Proof. apply vm_same. apply vm_refl. Qed.

Lemma test_subgraph_ok s sadj g gadj : rep s sadj -> primary_edges s sadj -> rep g gadj -> primary_edges g gadj ->
  gN s = gN g -> sort_state s -> sort_state g ->
  wp (_TestSubgraph s g) (fun '(s', g', r) => same_but_marks s s' /\ same_but_marks g g' /\ (r = C_TRUE \/ r = C_FALSE) /\
    (r = C_TRUE <-> sub_adj s sadj g gadj)).
Proof.
  intros Rs Ps Rg Pg EN Ss Sg. unfold _TestSubgraph.
  change sorted_by_dfi with is_sorted. unfold sub_adj, label.
  destruct (is_sorted s) eqn:Es, (is_sorted g) eqn:Eg; cbn [negb andb bind].
  1,4: rewrite ?Es; cbn [negb andb bind];
    destruct (sub_core_ok s sadj g gadj Rs Ps Rg Pg EN) as (g1 & g' & r & E1 & E2 & Fr & Hr & Q);
    rewrite E1; cbn [bind]; rewrite E2; cbn [bind];
    pose proof (sm_refl s) as SR; pose proof (vm_same _ _ Fr) as SG;
    assert (Q' : (forall v e, In e (sadj v) -> exists v' e', In e' (gadj v') /\ v' = v /\ enbr g e' = enbr s e) <->
       (forall v e, In e (sadj v) -> exists e', In e' (gadj v) /\ enbr g e' = enbr s e))
      by (split; intros H v e He; [destruct (H v e He) as (? & e' & ? & -> & ?); eauto|destruct (H v e He) as (e' & ? & ?); eauto]);
    (destruct Hr as [-> | ->]; cbn [wp]; [|rewrite Z.eqb_refl]); rewrite Q';
      (split; [auto|]; split; [auto|]; split; [auto|]); rewrite <- Q; split; try discriminate; try congruence; tauto.
  - (* the subgraph is sorted *)
    destruct (sort_marks_sort s sadj Rs Ps Ss Es) as (h & adj' & Eh & Rh & Ph & Nh & Mh & Sh & A1 & A2 & A3 & A4 & Bk).
    rewrite Eh. cbn [bind]. rewrite Sh. cbn [negb andb bind].
    destruct (sub_core_ok h adj' g gadj Rh Ph Rg Pg ltac:(congruence)) as (g1 & g' & r & E1 & E2 & Fr & Hr & Q).
    rewrite E1; cbn [bind]; rewrite E2; cbn [bind].
    destruct (Bk h (vm_refl h)) as (k & Ek & Sk). rewrite Ek. cbn [bind].
    pose proof (sv_same _ _ Sk) as SR. pose proof (vm_same _ _ Fr) as SG.
    assert (Q' : (forall v e, In e (sadj v) -> exists v' e', In e' (gadj v') /\ v' = vindex s v /\ enbr g e' = vindex s (enbr s e)) <->
       (forall v e, In e (adj' v) -> exists e', In e' (gadj v) /\ enbr g e' = enbr h e)).
    { split; intros H v e He.
      - assert (Pv : primary s v) by (apply Ph in He; unfold primary in *; now rewrite Nh in He).
        destruct (A3 v Pv) as (u & Pu & <-). rewrite A1 in He by auto. destruct (H u e He) as (v' & e' & H1 & -> & H2).
        exists e'. rewrite (A4 u e He). auto.
      - pose proof (Ps _ _ He) as Pv. rewrite <- A1 in He by auto. destruct (H _ _ He) as (e' & H1 & H2).
        exists (vindex s v), e'. split; auto. split; auto. rewrite H2. rewrite A1 in He by auto. eauto. }
    replace (gM k) with (gM s) by (symmetry; apply (sm_M _ _ SR)). rewrite Mh in Hr.
    (destruct Hr as [-> | ->]; cbn [wp]; [|rewrite Z.eqb_refl]); rewrite Q';
      (split; [auto|]; split; [auto|]; split; [auto|]); rewrite <- Q; split; try discriminate; try congruence; tauto.
  - (* the graph is sorted *)
    rewrite Es. cbn [negb andb].
    destruct (sort_marks_sort g gadj Rg Pg Sg Eg) as (h & adj' & Eh & Rh & Ph & Nh & Mh & Sh & A1 & A2 & A3 & A4 & Bk).
    rewrite Eh. cbn [bind].
    destruct (sub_core_ok s sadj h adj' Rs Ps Rh Ph ltac:(congruence)) as (g1 & g' & r & E1 & E2 & Fr & Hr & Q).
    rewrite E1; cbn [bind]; rewrite E2; cbn [bind].
    destruct (Bk g' Fr) as (k & Ek & Sk). rewrite Ek. cbn [bind].
    pose proof (sv_same _ _ Sk) as SG. pose proof (sm_refl s) as SR.
    assert (Q' : (forall v e, In e (sadj v) -> exists v' e', In e' (gadj v') /\ vindex g v' = v /\ vindex g (enbr g e') = enbr s e) <->
       (forall v e, In e (sadj v) -> exists e', In e' (adj' v) /\ enbr h e' = enbr s e)).
    { split; intros H v e He.
      - destruct (H v e He) as (v' & e' & H1 & <- & H2). exists e'. pose proof (Pg _ _ H1).
        rewrite A1 by auto. split; auto. rewrite (A4 v' e' H1). auto.
      - destruct (H v e He) as (e' & H1 & H2). pose proof (Ps _ _ He) as Pv. assert (Pv' : primary g v) by (unfold primary in *; now rewrite <- EN).
        destruct (A3 v Pv') as (u & Pu & <-). rewrite A1 in H1 by auto. exists u, e'. split; auto. split; auto. rewrite <- H2. symmetry; eauto. }
    (destruct Hr as [-> | ->]; cbn [wp]; [|rewrite Z.eqb_refl]); rewrite Q';
      (split; [auto|]; split; [auto|]; split; [auto|]); rewrite <- Q; split; try discriminate; try congruence; tauto.
Qed.
