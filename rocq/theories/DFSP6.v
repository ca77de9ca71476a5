(** * DFSP6: least ancestors alone, and both functions as wholes. *)
From Verif Require Import Base BaseP GraphRec GraphM GraphSpec GSimp LinkP GraphP GraphP5 DFSM DFSSpec DFSP DFSP2 DFSP3 DFSP4 DFSP5.

Section Least.
Variables (g : graph) (adj : Z -> list Z).
Hypotheses (R : rep g adj) (P : primary_edges g adj).
Hypothesis DF : dfs_forest g adj (par g) (fun v => v).
Hypothesis Room : gN g <= gstackCap g.
Notation children := (children g adj).

Lemma least_loop_ok u vf la lo : forall l done n st a0, adj u = done ++ l -> (length l < n)%nat ->
  Z.of_nat (length st) + Z.of_nat (length (filter (is_child g) l)) <= gstackCap g ->
  wp (least_loop n (lst g st vf la lo) (hd NIL l) a0) (fun p => let '(s, a) := p in
    s = lst g (rev (map (enbr g) (filter (is_child g) l)) ++ st) vf la lo /\
    a <= a0 /\ (forall x, back_of g l x -> a <= x) /\ (a = a0 \/ back_of g l a)).
Proof.
  induction l as [|e l IH]; intros done n st a0 E Hn Hc; destruct n as [|n]; cbn [length] in Hn; try lia.
  - cbn [least_loop hd]. rewrite Z.eqb_refl. apply wp_ret. repeat split; try lia; auto. intros x (e & [] & _).
  - cbn [least_loop hd].
    assert (Hi : In e (adj u)) by (rewrite E; apply in_app_iff; right; now left).
    rewrite (eqb_false_neq e NIL) by (apply (ch_nonnil _ _ _ _ (rep_chains _ _ R) Hi)).
    pose proof (lst_inE g adj R st vf la lo u e Hi) as I.
    assert (Enx : forall s, enext (lst g s vf la lo) e = hd NIL l) by (intros s; apply (chains_links _ _ _ _ _ _ (rep_chains _ _ R) E)).
    rewrite (get_nbr _ _ I). cbn [bind]. rewrite (get_type _ _ I). cbn [bind].
    change (Z.land (eflags (lst g st vf la lo) e) EDGE_TYPE_MASK) with (etype g e).
    change (enbr (lst g st vf la lo) e) with (enbr g e). cbn [filter] in *. unfold is_child in Hc at 1. unfold is_child at 1.
    destruct (etype g e =? EDGE_TYPE_CHILD) eqn:Ec; [|destruct (etype g e =? EDGE_TYPE_BACK) eqn:Eb].
    + apply Z.eqb_eq in Ec. unfold stk_push. cbn [length] in Hc. rewrite guard_true by (unfold lst; gsimp; lia). cbn [bind].
      change (set_gstack (lst g st vf la lo) (enbr g e :: gstack (lst g st vf la lo))) with (lst g (enbr g e :: st) vf la lo).
      rewrite get_next by (apply (lst_inE g adj R _ _ _ _ u); auto). cbn [bind]. rewrite Enx.
      eapply wp_mono; [apply (IH (done ++ [e])); [now rewrite <- app_assoc|lia|cbn [length]; lia]|].
      intros [s a] (A0 & A1 & A2 & A3). split; [cbn [map rev]; rewrite <- app_assoc; exact A0|]. split; [auto|]. split.
      * intros x (e' & [<-|He'] & Ht & Hx); [rewrite Ec in Ht; discriminate|]. apply A2. exists e'. auto.
      * destruct A3 as [A3|(e' & He' & Ht & Hx)]; [auto|]. right. exists e'. split; [now right|auto].
    + apply Z.eqb_neq in Ec. apply Z.eqb_eq in Eb. cbn [bind]. rewrite (get_next _ _ I). cbn [bind]. rewrite Enx.
      eapply wp_mono; [apply (IH (done ++ [e])); [now rewrite <- app_assoc|lia|lia]|].
      intros [s a] (A0 & A1 & A2 & A3). split; [auto|]. split; [destruct (a0 >? enbr g e) eqn:X; lia|]. split.
      * intros x (e' & [<-|He'] & Ht & Hx); [subst x; destruct (a0 >? enbr g e) eqn:X; lia|]. apply A2. exists e'. auto.
      * destruct A3 as [A3|(e' & He' & Ht & Hx)]; [|right; exists e'; split; [now right|auto]].
        destruct (a0 >? enbr g e) eqn:X; [right|left; auto]. exists e. split; [now left|auto].
    + apply Z.eqb_neq in Ec, Eb. cbn [bind]. rewrite (get_next _ _ I). cbn [bind]. rewrite Enx.
      eapply wp_mono; [apply (IH (done ++ [e])); [now rewrite <- app_assoc|lia|lia]|].
      intros [s a] (A0 & A1 & A2 & A3). split; [auto|]. split; [auto|]. split.
      * intros x (e' & [<-|He'] & Ht & Hx); [congruence|]. apply A2. exists e'. auto.
      * destruct A3 as [A3|(e' & He' & Ht & Hx)]; [auto|]. right. exists e'. split; [now right|auto].
Qed.

Record minv (v0 : Z) (st vs : list Z) (vf la vf0 la0 : Z -> Z) : Prop := {
  mi_vs : NoDup vs /\ forall x, In x vs <-> primary g x /\ vis vf x = true;
  mi_final : forall x, In x vs -> is_min (la x) (back_reach g adj x) /\ forall c, In c (children x) -> In c vs \/ In c st;
  mi_st : NoDup st /\ forall x, In x st -> primary g x /\ ancestor (par g) v0 x /\ ~ In x vs /\ (x = v0 \/ In (par g x) vs);
  mi_range : forall x, In x vs -> x < v0 \/ ancestor (par g) v0 x;
  mi_par : forall x, In x vs -> x = v0 \/ par g x = NIL \/ In (par g x) vs;
  mi_np : forall x, ~ primary g x -> vf x = vf0 x /\ la x = la0 x;
  mi_vf : forall x, Z.ldiff (vf x) VERTEX_VISITED_MASK = Z.ldiff (vf0 x) VERTEX_VISITED_MASK }.

Lemma minv_step v0 u st vs vf la vf0 la0 a : minv v0 (u :: st) vs vf la vf0 la0 ->
  a <= u -> (forall x, back_of g (adj u) x -> a <= x) -> (a = u \/ back_of g (adj u) a) ->
  minv v0 (rev (children u) ++ st) (u :: vs) (upd vf u (Z.lor (vf u) VERTEX_VISITED_MASK)) (upd la u a) vf0 la0.
Proof.
  intros [[V1 V2] Hf [S1 S2] Hr Hp Hnp Hvf] A1 A2 A3.
  destruct (S2 u (or_introl eq_refl)) as (Pu & Au & Nu & Qu).
  apply NoDup_cons_iff in S1. destruct S1 as [Nus S1].
  assert (Cu : forall c, In c (children u) -> primary g c /\ par g c = u) by (intros c; apply (child_iff g adj R P DF u c Pu)).
  assert (Cp : forall c, In c (children u) -> par g c <> NIL) by (intros c Hc; destruct (Cu c Hc) as [_ ->]; destruct Pu; unfold NIL; lia).
  assert (Cg : forall c, In c (children u) -> v0 < c).
  { intros c Hc. destruct (Cu c Hc) as [Pc Ec]. destruct (df_parent _ _ _ _ DF c Pc (Cp c Hc)) as [_ L].
    pose proof (anc_le g adj DF v0 u Pu Au). lia. }
  constructor.
  - split; [now apply NoDup_cons|]. intros x. rewrite vis_upd. cbn [In]. rewrite V2. split.
    + intros [<-|[Hx Hx']]; [rewrite Z.eqb_refl; auto|]. rewrite Hx', orb_true_r. auto.
    + intros [Hx Hx']. destruct (x =? u) eqn:E; [left; lia|right; auto].
  - intros x [<-|Hx].
    + rewrite upd_same. split; [split|].
      * destruct A3 as [->|(e & E1 & E2 & E3)]; [now left|right; exists e; auto].
      * intros x [->|(e & E1 & E2 & E3)]; [auto|]. apply A2. exists e. auto.
      * intros c Hc. right. apply in_app_iff. left. now apply -> in_rev.
    + rewrite upd_other by congruence. destruct (Hf x Hx) as [F1 F2]. split; [auto|]. intros c Hc.
      destruct (F2 c Hc) as [|[|]]; [left; now right|left; now left|right; apply in_app_iff; auto].
  - split.
    + apply NoDup_app_intro; [apply NoDup_rev, (children_nodup g adj R P DF)|auto|]. intros x Hx Hi. apply in_rev in Hx.
      destruct (S2 x (or_intror Hi)) as (_ & _ & _ & [E|Q]); [pose proof (Cg x Hx); lia|].
      destruct (Cu x Hx) as [_ Ex]. congruence.
    + intros x Hx. apply in_app_iff in Hx. destruct Hx as [Hx|Hx].
      * apply in_rev in Hx. destruct (Cu x Hx) as [Px Ex]. split; [auto|]. split; [apply anc_step; [now apply Cp|rewrite Ex; auto]|].
        split; [|right; rewrite Ex; now left]. intros [<-|Hd]; [pose proof (Cp u Hx); destruct (df_parent _ _ _ _ DF u Pu H); lia|].
        destruct (Hp x Hd) as [E|[E|E]].
        -- pose proof (Cg x Hx). lia.
        -- now apply (Cp x Hx).
        -- congruence.
      * destruct (S2 x (or_intror Hx)) as (B1 & B2 & B3 & B4). do 2 (split; [auto|]). split; [intros [<-|]; auto|]. destruct B4; [auto|right; now right].
  - intros x [<-|Hx]; auto.
  - intros x [<-|Hx].
    + destruct Qu; [auto|]. right; right. now right.
    + destruct (Hp x Hx) as [|[|]]; auto. right; right; now right.
  - intros x Hx. destruct (Hnp x Hx) as (B1 & B2). rewrite !upd_other by congruence. auto.
  - intros x. unfold upd. destruct (x =? u) eqn:E; [|auto]. apply Z.eqb_eq in E. subst x. rewrite ldiff_lor_mask by reflexivity. auto.
Qed.

Lemma minv_len v0 st vs vf la vf0 la0 : minv v0 st vs vf la vf0 la0 ->
  Z.of_nat (length st) <= gN g /\ Z.of_nat (length vs) <= gN g.
Proof.
  intros [[V1 V2] Hf [S1 S2] Hr Hp Hnp Hvf]. pose proof (st_N _ _ (rep_storage _ _ R)) as HN.
  split.
  - pose proof (nodup_range_length st 1 (gN g + 1) S1) as H.
    enough (Z.of_nat (length st) <= Z.max 0 (gN g + 1 - 1)) by lia. apply H. intros x Hx. destruct (S2 x Hx) as [[] _]. lia.
  - pose proof (nodup_range_length vs 1 (gN g + 1) V1) as H.
    enough (Z.of_nat (length vs) <= Z.max 0 (gN g + 1 - 1)) by lia. apply H. intros x Hx. apply V2 in Hx. destruct Hx as [[] _]. lia.
Qed.

Lemma least_tree_ok v0 vf0 la0 lo : forall n st vs vf la, minv v0 st vs vf la vf0 la0 ->
  gN g - Z.of_nat (length vs) < Z.of_nat n ->
  wp (least_tree_loop n (lst g st vf la lo) (1 + Z.of_nat (length vs))) (fun p => exists vs' vf' la',
     minv v0 [] vs' vf' la' vf0 la0 /\ fst p = lst g [] vf' la' lo /\ snd p = 1 + Z.of_nat (length vs') /\ incl vs vs' /\ incl st vs').
Proof.
  induction n as [|n IH]; intros st vs vf la I Hn; pose proof (minv_len _ _ _ _ _ _ _ I) as (L1 & L2); [lia|].
  cbn [least_tree_loop]. unfold stk_empty. change (gstack (lst g st vf la lo)) with st.
  destruct st as [|u st].
  - apply wp_ret. exists vs, vf, la. split; [auto|]. do 2 (split; [reflexivity|]). split; [apply incl_refl|]. intros x [].
  - destruct (proj2 (mi_st _ _ _ _ _ _ _ I) u (or_introl eq_refl)) as (Pu & Au & Du & Qu).
    unfold stk_pop. change (gstack (lst g (u :: st) vf la lo)) with (u :: st). cbn [bind].
    change (set_gstack (lst g (u :: st) vf la lo) st) with (lst g st vf la lo).
    destruct (lst_inV g st vf la lo u Pu) as [Iv Ii]. rewrite (get_visited _ _ Iv). cbn [bind].
    change (vflags (lst g st vf la lo) u) with (vf u).
    destruct (Z.land (vf u) VERTEX_VISITED_MASK =? 0) eqn:Ev.
    2:{ exfalso. apply Du. apply (proj2 (mi_vs _ _ _ _ _ _ _ I)). split; [auto|]. unfold vis. now rewrite Ev. }
    unfold gp_SetVertexVisited. rewrite (rd_vflags_ok _ _ Iv). cbn [bind]. rewrite (wr_vflags_ok _ _ _ Iv). cbn [bind].
    change (set_vflags (lst g st vf la lo) (upd (vflags (lst g st vf la lo)) u (Z.lor (vflags (lst g st vf la lo) u) VERTEX_VISITED_MASK)))
      with (lst g st (upd vf u (Z.lor (vf u) VERTEX_VISITED_MASK)) la lo).
    set (vf' := upd vf u (Z.lor (vf u) VERTEX_VISITED_MASK)) in *.
    rewrite get_first by (apply lst_inV; auto). cbn [bind].
    change (vfirst (lst g st vf' la lo) u) with (vfirst g u).
    rewrite (ch_first _ _ (rep_chains _ _ R) u) by (destruct Pu; unfold is_vertex; lia).
    change (efuel (lst g st vf' la lo)) with (efuel g). apply wp_bind.
    assert (Ln : Z.of_nat (length st) + Z.of_nat (length (children u)) <= gN g).
    { pose proof (minv_step _ _ _ _ _ _ _ _ (hd u (filter (fun _ => false) st)) I) as Q. destruct I as [[V1 V2] Hf [S1 S2] Hr Hp Hnp Hvf].
      clear Q. apply NoDup_cons_iff in S1. destruct S1 as [Nus S1].
      pose proof (nodup_range_length (children u ++ st) 1 (gN g + 1)) as H. rewrite app_length in H.
      pose proof (st_N _ _ (rep_storage _ _ R)).
      enough (Z.of_nat (length (children u) + length st) <= Z.max 0 (gN g + 1 - 1)) by lia. apply H.
      - apply NoDup_app_intro; [apply (children_nodup g adj R P DF)|auto|]. intros x Hx Hi. apply (child_iff g adj R P DF u x Pu) in Hx. destruct Hx as [Px Ex].
        destruct (S2 x (or_intror Hi)) as (_ & _ & _ & [E|Q]); [|congruence].
        assert (N : par g x <> NIL) by (rewrite Ex; destruct Pu; unfold NIL; lia).
        destruct (df_parent _ _ _ _ DF x Px N). pose proof (anc_le g adj DF v0 u Pu Au). lia.
      - intros x Hx. apply in_app_iff in Hx. destruct Hx as [Hx|Hx].
        + apply (child_iff g adj R P DF u x Pu) in Hx. destruct Hx as [[] _]. lia.
        + destruct (S2 x (or_intror Hx)) as ([] & _). lia. }
    eapply wp_mono; [apply (least_loop_ok u vf' la lo (adj u) []); [reflexivity|apply (adj_len g adj u), R|]|].
    { unfold DFSP5.children in Ln. rewrite map_length in Ln. lia. }
    intros [s a] (-> & A1 & A2 & A3). fold (DFSP5.children g adj u).
    unfold gp_SetVertexLeastAncestor. rewrite guard_true by (now apply lst_inV). cbn [bind].
    change (set_gVI (lst g (rev (children u) ++ st) vf' la lo) (set_viLeast (gVI (lst g (rev (children u) ++ st) vf' la lo)) (upd (viLeast (gVI (lst g (rev (children u) ++ st) vf' la lo))) u a)))
      with (lst g (rev (children u) ++ st) vf' (upd la u a) lo).
    pose proof (minv_step _ _ _ _ _ _ _ _ a I A1 A2 A3) as I'. fold vf' in I'.
    pose proof (minv_len _ _ _ _ _ _ _ I') as (L1' & L2').
    replace (1 + Z.of_nat (length vs) + 1) with (1 + Z.of_nat (length (u :: vs))) by (cbn [length]; lia).
    eapply wp_mono; [apply (IH _ _ _ _ I'); cbn [length] in *; lia|].
    intros p (vs' & vf1 & la1 & Q1 & Q2 & Q3 & Q4 & Q5). exists vs', vf1, la1. do 3 (split; [auto|]). split.
    + intros x Hx. apply Q4. now right.
    + intros x [<-|Hx]; [apply Q4; now left|]. apply Q5. apply in_app_iff. now right.
Qed.

Record mfin (v : Z) (vf la vf0 la0 : Z -> Z) : Prop := {
  mf_vis : forall x, primary g x -> (vis vf x = true <-> x < v);
  mf_kids : forall x c, primary g x -> x < v -> In c (children x) -> c < v;
  mf_final : forall x, primary g x -> x < v -> is_min (la x) (back_reach g adj x);
  mf_np : forall x, ~ primary g x -> vf x = vf0 x /\ la x = la0 x;
  mf_vf : forall x, Z.ldiff (vf x) VERTEX_VISITED_MASK = Z.ldiff (vf0 x) VERTEX_VISITED_MASK }.

Lemma least_forest_ok vf0 la0 lo : forall n v vf la, mfin v vf la vf0 la0 -> 1 <= v <= gN g + 1 ->
  gN g + 1 - v < Z.of_nat n ->
  wp (least_forest_loop n (lst g [] vf la lo) v) (fun s => exists vf' la', s = lst g [] vf' la' lo /\ mfin (gN g + 1) vf' la' vf0 la0).
Proof.
  induction n as [|n IH]; intros v vf la F Hv Hn; [lia|]. cbn [least_forest_loop].
  change (gN (lst g [] vf la lo)) with (gN g). destruct (v <=? gN g) eqn:E; [apply Z.leb_le in E|apply Z.leb_gt in E].
  - assert (Pv : primary g v) by (split; lia).
    destruct (lst_inV g [] vf la lo v Pv) as [Iv _]. rewrite (get_visited _ _ Iv). cbn [bind].
    assert (Uv : vis vf v = false).
    { destruct (vis vf v) eqn:X; [|auto]. apply (mf_vis _ _ _ _ _ F v Pv) in X. lia. }
    change (vflags (lst g [] vf la lo) v) with (vf v). unfold vis in Uv. rewrite Uv.
    unfold stk_push. pose proof (st_N _ _ (rep_storage _ _ R)) as HN. rewrite guard_true by (unfold lst; gsimp; cbn [length]; lia). cbn [bind].
    change (set_gstack (lst g [] vf la lo) (v :: gstack (lst g [] vf la lo))) with (lst g [v] vf la lo).
    assert (I : minv v [v] (zto (v - 1)) vf la vf0 la0).
    { assert (Zi : forall x, In x (zto (v - 1)) <-> primary g x /\ x < v) by (intros x; rewrite zto_in; unfold primary; lia).
      constructor.
      - split; [apply zto_nodup|]. intros x. rewrite Zi. split; intros [H1 H2]; (split; [auto|]); now apply (mf_vis _ _ _ _ _ F x H1).
      - intros x Hx. apply Zi in Hx. destruct Hx as [H1 H2]. split; [now apply (mf_final _ _ _ _ _ F)|].
        intros c Hc. left. apply Zi. split; [now apply (child_iff g adj R P DF x c H1)|]. now apply (mf_kids _ _ _ _ _ F x).
      - split; [repeat constructor; auto|]. intros x [<-|[]]. split; [auto|]. split; [constructor|]. split; [rewrite Zi; lia|auto].
      - intros x Hx. apply Zi in Hx. left. tauto.
      - intros x Hx. apply Zi in Hx. destruct Hx as [H1 H2]. destruct (Z.eq_dec (par g x) NIL) as [|N]; [auto|].
        right; right. destruct (df_parent _ _ _ _ DF x H1 N) as [Q1 Q2]. apply Zi. split; [auto|lia].
      - apply F.
      - apply F. }
    assert (Lz : Z.of_nat (length (zto (v - 1))) = v - 1) by (rewrite zto_len; lia).
    pose proof (least_tree_ok v vf0 la0 lo (tfuel (lst g [v] vf la lo)) _ _ _ _ I) as W.
    rewrite Lz in W. replace (1 + (v - 1)) with v in W by lia. apply wp_bind. eapply wp_mono; [apply W|].
    { unfold tfuel. change (gN (lst g [v] vf la lo)) with (gN g). change (gp_EdgeIndexBound (lst g [v] vf la lo)) with (gp_EdgeIndexBound g).
      pose proof (cap_nonneg _ _ R). unfold gp_EdgeIndexBound. rewrite Nat2Z.inj_succ, Nat2Z.inj_mul, !Nat2Z.inj_succ, !Z2Nat.id by lia. nia. }
    intros [s v'] (vs & vf' & la' & J & Es & Ev & Hi & Hst). cbn [fst snd] in *. subst s.
    assert (Kid : forall x c, In x vs -> In c (children x) -> In c vs).
    { intros x c Hx Hc. destruct (mi_final _ _ _ _ _ _ _ J x Hx) as [_ K]. destruct (K c Hc) as [|[]]. auto. }
    assert (Sub : forall d, primary g d -> ancestor (par g) v d -> In d vs).
    { assert (S' : forall d, ancestor (par g) v d -> primary g d -> In d vs).
      { intros d H. induction H as [|d N H IHd]; intros Pd.
        - apply Hst. now left.
        - destruct (df_parent _ _ _ _ DF d Pd N) as [Pp _]. apply (Kid (par g d)); [auto|]. apply (child_iff g adj R P DF); auto. }
      intros d Pd H. now apply S'. }
    assert (Low : forall x, primary g x -> x < v -> In x vs).
    { intros x Px Hx. apply Hi, zto_in. destruct Px; lia. }
    assert (Seg : forall x, In x vs <-> 1 <= x <= Z.of_nat (length vs)).
    { apply downclosed.
      - apply (mi_vs _ _ _ _ _ _ _ J).
      - intros x Hx. apply (mi_vs _ _ _ _ _ _ _ J) in Hx. destruct Hx as [[] _]. auto.
      - intros x y Hy Hxy. pose proof (proj1 (proj2 (mi_vs _ _ _ _ _ _ _ J) y) Hy) as [[Py1 Py2] _].
        assert (Px : primary g x) by (split; lia). destruct (Z_lt_dec x v) as [|Nx]; [auto|].
        destruct (mi_range _ _ _ _ _ _ _ J y Hy) as [|Ay]; [lia|]. apply Sub; [auto|].
        apply (df_preorder _ _ _ _ DF v x y); auto; [split; lia|lia]. }
    pose proof (minv_len _ _ _ _ _ _ _ J) as (_ & L2).
    assert (In v vs) as Iv' by (apply Sub; [auto|constructor]). apply Seg in Iv'.
    rewrite Ev. apply IH; [|lia|lia]. destruct J as [[V1 V2] Hf _ Hr Hp Hnp Hvf]. constructor; auto.
    + intros x Px. assert (X : vis vf' x = true <-> In x vs) by (rewrite V2; tauto). rewrite X, Seg. destruct Px; lia.
    + intros x c Px Hx Hc. assert (In x vs) as Ix by (apply Seg; destruct Px; lia). apply (Kid x c Ix), Seg in Hc. lia.
    + intros x Px Hx. assert (In x vs) as Ix by (apply Seg; destruct Px; lia). now apply Hf.
  - apply wp_ret. exists vf, la. split; [auto|]. replace (gN g + 1) with v by lia. exact F.
Qed.
End Least.
