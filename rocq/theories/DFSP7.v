(** * DFSP7: graphs made by editing satisfy the hypotheses; the lowpoint functions as wholes. *)
From Verif Require Import Base BaseP GraphRec GraphM GraphSpec GSimp LinkP GraphP GraphP2 GraphP3 GraphP4 GraphP5 GraphEx DFSM DFSSpec DFSP DFSP2 DFSP3 DFSP4 DFSP5 DFSP6.

Definition plain_inv (g : graph) : Prop :=
  giflags g = 0 /\ (forall v, par g v = NIL) /\ (forall e, etype g e = 0) /\ (forall e, enbr g e <= gN g) /\
  2 <= gstackCap g /\ 0 <= gN g.

Lemma plain_insert g g' adj u eu ul v ev vl : plain_inv g -> u <= gN g -> v <= gN g ->
  insert_post g g' adj u eu ul v ev vl -> plain_inv g'.
Proof.
  intros (I1 & I2 & I3 & I4 & I5 & I6) Hu Hv P. pose proof (ip_frame _ _ _ _ _ _ _ _ _ P) as F.
  unfold plain_inv, par, etype. rewrite (if_iflags _ _ F), (if_VI _ _ F), (if_eflags _ _ F), (if_stackCap _ _ F), (if_N _ _ F).
  do 3 (split; [auto|]). split; [|auto]. intros e. rewrite (ip_enbr _ _ _ _ _ _ _ _ _ P). destruct (_ =? _); [auto|]. destruct (_ =? _); auto.
Qed.
Lemma plain_grown g g' c : plain_inv g -> grown g g' c -> plain_inv g'.
Proof.
  intros (I1 & I2 & I3 & I4 & I5 & I6) G.
  unfold plain_inv, par, etype. rewrite (gr_iflags _ _ _ G), (gr_VI _ _ _ G), (gr_N _ _ _ G).
  do 2 (split; [auto|]). split; [|split; [|split; [|auto]]].
  - intros e. rewrite (gr_eflags _ _ _ G). destruct (_ && _); [reflexivity|apply I3].
  - intros e. rewrite (gr_enbr _ _ _ G). destruct (_ && _); [auto|apply I4].
  - pose proof (gr_stackCap _ _ _ G). lia.
Qed.
Lemma plain_add g g' adj u ul v vl r : plain_inv g -> u <= gN g -> v <= gN g -> add_post g g' adj u ul v vl r -> plain_inv g'.
Proof.
  intros I Hu Hv. unfold add_post. destruct (negb _); [intros [-> _]; auto|]. destruct (_ <=? _); [intros [-> _]; auto|].
  intros [_ P]. now apply (plain_insert _ _ _ _ _ _ _ _ _ I Hu Hv P).
Qed.
Lemma plain_ensure g g' req r : plain_inv g -> ensure_post g g' req r -> plain_inv g'.
Proof.
  intros I. unfold ensure_post. destruct (_ || _); [intros [-> _]; auto|]. destruct (_ <=? _); [intros [-> _]; auto|].
  intros [_ G]. now apply (plain_grown _ _ _ I G).
Qed.

Lemma plain_gstep g o : hist_inv g -> plain_inv g -> gop_valid g o -> plain_op g o -> wp (gstep g o) (fun r => plain_inv (fst r)).
Proof.
  intros ((adj & R) & Cl & Hs & Hc) I Hv Hp. pose proof (stack_len0 _ Hs Hc) as Hst.
  destruct o as [u ul v vl|u ul v vl|u eu ul v ev vl|e l|c| |e f]; cbn [gstep gop_valid plain_op] in *.
  - destruct Hv, Hp. eapply wp_mono; [eapply add_edge_ok; eauto|]. intros [g' r] P. cbn [fst snd] in *. eapply plain_add; [exact I| | |exact P]; auto.
  - destruct Hv as (H1 & H2 & H3), Hp as [Hu Hvv]. eapply wp_mono; [eapply dyn_add_ok; eauto|]. intros [g' r] (g1 & r1 & E & P). cbn [fst snd] in *.
    destruct (valid_vertex g u && valid_vertex g v); cbn [negb] in P.
    2:{ destruct P as [-> _]. auto. }
    destruct (gCap g / 2 <=? gM g); cbn [negb] in P.
    2:{ eapply plain_add; [exact I| | |exact P]; auto. }
    pose proof (plain_ensure _ _ _ _ I E) as I1.
    assert (N1 : gN g1 = gN g).
    { unfold ensure_post in E. destruct (_ || _); [destruct E as [-> _]; auto|]. destruct (_ <=? _); [destruct E as [-> _]; auto|].
      destruct E as [_ G]. apply G. }
    destruct (r1 =? C_OK) eqn:Er; cbn [negb] in P.
    + destruct P as [R1 P]. refine (plain_add _ _ _ _ _ _ _ _ I1 _ _ P); rewrite N1; auto.
    + destruct P as [-> _]. auto.
  - destruct Hv as (H1 & H2), Hp as [Hu Hvv]. eapply wp_mono; [eapply insert_edge_ok; eauto|]. intros [g' r] P. cbn [fst snd] in *.
    unfold ins_post in P. destruct (negb _); [destruct P as [-> _]; auto|].
    destruct (_ <=? _); [destruct P as [-> _]; auto|]. destruct P as [_ P]. eapply plain_insert; [exact I| | |exact P]; auto.
  - destruct Hv as (H1 & H2). eapply wp_mono; [eapply delete_edge_ok; eauto|].
    intros [g' r] (R' & D & _). cbn [fst snd] in *. destruct I as (I1 & I2 & I3 & I4 & I5 & I6).
    unfold plain_inv, par, etype. rewrite (df_iflags _ _ _ D), (df_VI _ _ _ D), (GraphP3.df_N _ _ _ D), (df_stackCap _ _ _ D).
    do 2 (split; [auto|]). split; [|split; [|auto]].
    + intros x. rewrite (df_eflags _ _ _ D). destruct (_ || _); [reflexivity|apply I3].
    + intros x. rewrite (df_enbr _ _ _ D). destruct (_ || _); [auto|apply I4].
  - eapply wp_mono; [eapply ensure_ok; eauto|]. intros [g' r] [P R']. cbn [fst snd] in *. eapply plain_ensure; eauto.
  - apply wp_ret. cbn [fst]. unfold gp_ReinitializeGraph. pose proof (st_N _ _ (rep_storage _ _ R)).
    replace (gN g <=? 0) with false by lia. destruct I as (I1 & I2 & I3 & I4 & I5 & I6).
    unfold plain_inv, par, etype, _ReinitializeGraph, _InitIsolatorContext, _InitEdges, _InitVertices, lists_reset. gsimp.
    split; [reflexivity|]. do 2 (split; [reflexivity|]). split; [intros e; unfold zfun; lia|]. auto.
  - apply (rep_in_use _ _ _ R) in Hv. destruct Hv as [v Hin].
    pose proof (ch_range _ _ (rep_chains _ _ R) _ _ Hin).
    rewrite wr_eflags_ok by (apply inE_true; lia). rewrite bind_ret. apply wp_ret. cbn [fst].
    destruct I as (I1 & I2 & I3 & I4 & I5 & I6). unfold plain_inv, par, etype. gsimp.
    do 2 (split; [auto|]). split; [|auto]. intros x. unfold upd. destruct (x =? e); [exact Hp|apply I3].
Qed.

Lemma plain_reach_reach g : plain_reach g -> reach g.
Proof. induction 1; [eapply reach_init; eauto|eapply reach_step; eauto]. Qed.
Lemma plain_reach_inv g : plain_reach g -> plain_inv g.
Proof.
  induction 1 as [req N g HN Hf|g o g' r Hr IH Hv Hp Hs].
  - unfold fresh_graph in Hf.
    assert (HG : exists c r, gp_EnsureArcCapacity gp_New req = Ret (set_gCap gp_New c, r)).
    { unfold gp_EnsureArcCapacity. destruct (req <=? 0) eqn:E0; [exists 0, C_NOTOK; reflexivity|].
      destruct (negb (Z.land req 1 =? 0)); [exists 0, C_NOTOK; reflexivity|].
      cbn [gCap gN gp_New]. replace (0 >=? req) with false by lia. exists req, C_OK. reflexivity. }
    destruct HG as (c & r & HG). rewrite HG, bind_ret in Hf. injection Hf as <-.
    unfold gp_InitGraph. replace (N <=? 0) with false by lia. cbn [gN set_gCap gp_New Z.eqb negb].
    unfold _InitGraph. cbv zeta. cbn [fst]. unfold _InitIsolatorContext, _InitEdges, _InitVertices, lists_reset.
    unfold plain_inv, par, etype. gsimp. do 3 (split; [reflexivity|]). split; [intros e; unfold zfun; cbn [gN set_gN]; lia|].
    split; [|cbn [gN set_gN]; lia]. destruct (_ <? 6 * N) eqn:E; lia.
  - pose proof (plain_gstep g o (reach_inv _ (plain_reach_reach _ Hr)) IH Hv Hp) as W. rewrite Hs in W. exact W.
Qed.

Lemma plain_reach_unsearched g : plain_reach g -> exists adj, rep g adj /\ primary_edges g adj /\ unsearched g adj.
Proof.
  intros H. destruct (plain_reach_inv g H) as (I1 & I2 & I3 & I4 & I5 & I6).
  destruct (reach_inv g (plain_reach_reach g H)) as ((adj & R) & _ & _ & Hc). exists adj. split; [auto|]. split.
  - intros v e He. split; [apply (ch_isvertex _ _ _ _ (rep_chains _ _ R) He)|].
    destruct (rep_twins _ _ R _ _ He) as [T _]. rewrite <- T. apply I4.
  - constructor; auto.
    + rewrite I1. reflexivity.
    + destruct Hc. lia.
Qed.

(** ** The two functions on sorted graphs *)
Definition sorted (g : graph) : Prop := Z.land (giflags g) FLAGS_SORTEDBYDFI <> 0.

Lemma lst_self g : lst g (gstack g) (vflags g) (viLeast (gVI g)) (viLow (gVI g)) = g.
Proof. destruct g as [? ? ? ? ? ? ? ? ? ? ? ? ? ? ? ? ? [] ?]. reflexivity. Qed.
Lemma lst_as g st vf : set_vflags (set_gstack g st) vf = lst g st vf (viLeast (gVI g)) (viLow (gVI g)).
Proof. destruct g as [? ? ? ? ? ? ? ? ? ? ? ? ? ? ? ? ? [] ?]. reflexivity. Qed.

Lemma low_sorted g adj : rep g adj -> primary_edges g adj -> dfs_forest g adj (par g) (fun v => v) -> searched g -> sorted g ->
  gN g <= gstackCap g ->
  exists vf la lo, gp_LowpointAndLeastAncestor g = Ret (lst g [] vf la lo, C_OK) /\
    (forall v, primary g v -> is_min (la v) (back_reach g adj v) /\ is_min (lo v) (low_reach g adj v)) /\
    (forall v, ~ primary g v -> vf v = vflags g v /\ la v = viLeast (gVI g) v /\ lo v = viLow (gVI g) v) /\
    (forall v, Z.ldiff (vf v) VERTEX_VISITED_MASK = Z.ldiff (vflags g v) VERTEX_VISITED_MASK).
Proof.
  intros R P DF S1 S2 Room. unfold gp_LowpointAndLeastAncestor, ensure_sorted.
  rewrite (eqb_false_neq _ _ S1). cbn [bind]. rewrite Z.eqb_refl. cbn [negb]. rewrite (eqb_false_neq _ _ S2). cbn [bind]. rewrite Z.eqb_refl. cbn [negb].
  replace (gstackCap g <? gN g) with false by lia. pose proof (st_N _ _ (rep_storage _ _ R)) as HN.
  destruct (clear_visited_ok (stk_clear g)) as (f & E & Hf); [unfold stk_clear; gsimp; lia|]. cbv zeta. rewrite E. cbn [bind].
  unfold stk_clear in *. gsimp. change (vflags (set_gstack g [])) with (vflags g) in Hf. change (gN (set_gstack g [])) with (gN g) in Hf.
  rewrite lst_as.
  assert (F : lfin g adj 1 f (viLeast (gVI g)) (viLow (gVI g)) (vflags g) (viLeast (gVI g)) (viLow (gVI g))).
  { constructor.
    - intros x [Hx Hx']. unfold vis. rewrite Hf. replace ((1 <=? x) && (x <=? gN g)) with true by lia. rewrite visited_ldiff. cbn. lia.
    - intros x c [] Hx. lia.
    - intros x [] Hx. lia.
    - intros x Hx. rewrite Hf. unfold primary in Hx. replace ((1 <=? x) && (x <=? gN g)) with false by lia. auto.
    - intros x. rewrite Hf. destruct (_ && _); [apply ldiff_ldiff_mask|reflexivity]. }
  pose proof (low_forest_ok g adj R P DF Room _ _ _ (Datatypes.S (Datatypes.S (Z.to_nat (gN g)))) 1 _ _ _ F ltac:(lia) ltac:(lia)) as W.
  apply wp_inv in W. destruct W as (s & Es & vf & la & lo & -> & K). change (gN (lst g [] f (viLeast (gVI g)) (viLow (gVI g)))) with (gN g). rewrite Es. cbn [bind].
  exists vf, la, lo. split; [reflexivity|]. destruct K as [K1 K2 K3 K4 K5]. split; [|auto].
  intros v Hv. apply K3; [auto|]. destruct Hv; lia.
Qed.

Lemma least_sorted g adj : rep g adj -> primary_edges g adj -> dfs_forest g adj (par g) (fun v => v) -> searched g -> sorted g ->
  gN g <= gstackCap g -> (forall v, primary g v -> visited g v = false) ->
  exists vf la, gp_LeastAncestor g = Ret (lst g [] vf la (viLow (gVI g)), C_OK) /\
    (forall v, primary g v -> is_min (la v) (back_reach g adj v)) /\
    (forall v, ~ primary g v -> vf v = vflags g v /\ la v = viLeast (gVI g) v) /\
    (forall v, Z.ldiff (vf v) VERTEX_VISITED_MASK = Z.ldiff (vflags g v) VERTEX_VISITED_MASK).
Proof.
  intros R P DF S1 S2 Room NV. unfold gp_LeastAncestor, ensure_sorted.
  rewrite (eqb_false_neq _ _ S1). cbn [bind]. rewrite Z.eqb_refl. cbn [negb]. rewrite (eqb_false_neq _ _ S2). cbn [bind]. rewrite Z.eqb_refl. cbn [negb].
  replace (gstackCap g <? gN g) with false by lia. pose proof (st_N _ _ (rep_storage _ _ R)) as HN. cbv zeta.
  replace (stk_clear g) with (lst g [] (vflags g) (viLeast (gVI g)) (viLow (gVI g))) by (destruct g as [? ? ? ? ? ? ? ? ? ? ? ? ? ? ? ? ? [] ?]; reflexivity).
  assert (F : mfin g adj 1 (vflags g) (viLeast (gVI g)) (vflags g) (viLeast (gVI g))).
  { constructor.
    - intros x Hx. pose proof (NV x Hx) as Q. unfold visited in Q. unfold vis. rewrite Q. destruct Hx. split; [discriminate|lia].
    - intros x c [] Hx. lia.
    - intros x [] Hx. lia.
    - auto.
    - reflexivity. }
  pose proof (least_forest_ok g adj R P DF Room _ _ (viLow (gVI g)) (Datatypes.S (Datatypes.S (Z.to_nat (gN g)))) 1 _ _ F ltac:(lia) ltac:(lia)) as W.
  apply wp_inv in W. destruct W as (s & Es & vf & la & -> & K). change (gN (lst g [] (vflags g) (viLeast (gVI g)) (viLow (gVI g)))) with (gN g). rewrite Es. cbn [bind].
  exists vf, la. split; [reflexivity|]. destruct K as [K1 K2 K3 K4 K5]. split; [|auto].
  intros v Hv. apply K3; [auto|]. destruct Hv; lia.
Qed.

(** ** From a graph that has not been searched *)
Lemma ensure_sorted_ok g adj : rep g adj -> primary_edges g adj -> unsearched g adj -> ~ sorted g ->
  exists g1 h adj', gp_CreateDFSTree g = Ret (g1, C_OK) /\ gp_SortVertices g1 = Ret (h, C_OK) /\ ensure_sorted g = Ret (h, C_OK) /\
    dfs_frame g g1 /\ dfs_forest g1 adj (par g1) (vindex g1) /\
    relabelled (vindex g1) g1 h /\ rep h adj' /\ primary_edges h adj' /\ (forall v, primary g v -> adj' (vindex g1 v) = adj v) /\
    dfs_forest h adj' (par h) (fun v => v) /\ searched h /\ sorted h.
Proof.
  intros R P U NS. destruct (create_dfs_ok g adj R P U) as (g1 & E1 & Fr & St & DF & Fl & Vs).
  assert (Sr : searched g1).
  { unfold searched. rewrite Fl. intros H. rewrite Z.land_lor_distr_l in H. apply Z.lor_eq_0_iff in H. destruct H as [_ H]. discriminate. }
  pose proof (frame_rep _ _ _ R Fr) as R1.
  assert (P1 : primary_edges g1 adj) by (intros v e He; unfold primary; rewrite (dff_N _ _ Fr); now apply (P v e)).
  destruct (sort_ok g1 adj R1 P1 Sr) as (h & adj' & E2 & RL & Fl2 & R2 & P2 & HA).
  { split; [apply DF|apply DF]. }
  { intros v Hv Hp. now apply (df_parent _ _ _ _ DF). }
  assert (SrS : searched h /\ sorted h).
  { unfold searched, sorted. rewrite Fl2, Fl.
    assert (T0 : Z.testbit (giflags g) 0 = false).
    { pose proof (us_flag _ _ U) as Q. apply (f_equal (fun z => Z.testbit z 0)) in Q. rewrite Z.land_spec in Q. cbn in Q. now rewrite andb_true_r in Q. }
    assert (T1 : Z.testbit (giflags g) 1 = false).
    { destruct (Z.testbit (giflags g) 1) eqn:T; [|auto]. exfalso. apply NS. unfold sorted. intros Q.
      apply (f_equal (fun z => Z.testbit z 1)) in Q. rewrite Z.land_spec, T in Q. discriminate. }
    split; intros Q.
    - apply (f_equal (fun z => Z.testbit z 0)) in Q. rewrite Z.land_spec, Z.lxor_spec, Z.lor_spec, T0 in Q. discriminate.
    - apply (f_equal (fun z => Z.testbit z 1)) in Q. rewrite Z.land_spec, Z.lxor_spec, Z.lor_spec, T1 in Q. discriminate. }
  exists g1, h, adj'. split; [auto|]. split; [auto|]. split.
  { unfold ensure_sorted. pose proof (us_flag _ _ U) as Q. unfold FLAGS_DFSNUMBERED. rewrite Q, Z.eqb_refl, E1. cbn [bind]. rewrite Z.eqb_refl. cbn [negb].
    replace (Z.land (giflags g1) FLAGS_SORTEDBYDFI =? 0) with true; [exact E2|]. symmetry. apply Z.eqb_eq. rewrite Fl, Z.land_lor_distr_l.
    destruct (Z.eq_dec (Z.land (giflags g) FLAGS_SORTEDBYDFI) 0) as [->|N]; [reflexivity|]. exfalso. now apply NS. }
  do 4 (split; [auto|]). split; [auto|]. split; [intros v Hv; apply HA; unfold primary; rewrite (dff_N _ _ Fr); auto|].
  split; [|auto]. now apply (relabelled_forest g1 adj h adj').
Qed.

Lemma ensure_sorted_again h : searched h -> sorted h -> ensure_sorted h = Ret (h, C_OK).
Proof.
  intros S1 S2. unfold ensure_sorted. rewrite (eqb_false_neq _ _ S1). cbn [bind]. rewrite Z.eqb_refl. cbn [negb]. now rewrite (eqb_false_neq _ _ S2).
Qed.
Lemma low_ensured g h : ensure_sorted g = Ret (h, C_OK) -> searched h -> sorted h ->
  gp_LowpointAndLeastAncestor g = gp_LowpointAndLeastAncestor h /\ gp_LeastAncestor g = gp_LeastAncestor h.
Proof.
  intros E S1 S2. pose proof (ensure_sorted_again h S1 S2) as E'.
  unfold gp_LowpointAndLeastAncestor, gp_LeastAncestor. rewrite E, E'. auto.
Qed.

(** ** Concrete histories *)
Definition plain_opb (g : graph) (o : gop) : bool :=
  match o with
  | GAdd u _ v _ | GDyn u _ v _ | GIns u _ _ v _ _ => (u <=? gN g) && (v <=? gN g)
  | GMark _ f => Z.land f EDGE_TYPE_MASK =? EDGE_TYPE_NOTDEFINED
  | GDel _ _ | GEnsure _ | GReinit => true
  end.
Fixpoint plain_run (g : graph) (l : list gop) : bool :=
  match l with
  | [] => true
  | o :: l' => plain_opb g o && match gstep g o with Ret (g', _) => plain_run g' l' | _ => false end
  end.
Lemma plain_run_ok l : forall g g', plain_reach g -> run_ops g l = Ret g' -> plain_run g l = true -> plain_reach g'.
Proof.
  induction l as [|o l IH]; cbn [run_ops plain_run]; intros g g' Hg E F; [now injection E as <-|].
  apply andb_prop in F. destruct F as [F1 F2]. destruct (gop_validb g o) eqn:V; [|discriminate]. apply gop_validb_ok in V.
  destruct (gstep g o) as [[g1 r]| |] eqn:E1; cbn [bind] in E; try discriminate.
  apply (IH g1); auto. eapply pr_step; [exact Hg|exact V| |exact E1]. destruct o; cbn [plain_op plain_opb] in *; lia || auto.
Qed.
Lemma built_plain req N l : is_ret (build req N l) = true -> plain_run (the gp_New (fresh_graph req N)) l = true ->
  plain_reach (built req N l).
Proof.
  unfold built, build. destruct (1 <=? N) eqn:HN; [|discriminate].
  destruct (fresh_graph req N) as [g0| |] eqn:E0; cbn [bind]; try discriminate. cbn [the].
  destruct (run_ops g0 l) as [g| |] eqn:E; try discriminate. intros _ F. apply (plain_run_ok l g0); auto. eapply pr_init; [|exact E0]. lia.
Qed.
