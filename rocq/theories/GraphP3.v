(** * GraphP3: deleting edges, counting, capacity, initialisation. *)
From Coq Require Import ZifyBool Permutation.
From Verif Require Import Base BaseP GraphRec GraphM GraphSpec GSimp LinkP GraphP GraphP2.

(** ** Counting *)
Definition rem (x : Z) (l : list Z) : list Z := filter (fun y => negb (y =? x)) l.

Lemma rem_notin x l : ~ In x l -> rem x l = l.
Proof.
  induction l as [|a l IH]; simpl; intros H; auto.
  rewrite eqb_false_neq by auto. cbn [negb]. rewrite IH; auto.
Qed.
Lemma rem_split x l1 l2 : NoDup (l1 ++ x :: l2) -> rem x (l1 ++ x :: l2) = l1 ++ l2.
Proof.
  intros N. apply NoDup_remove_2 in N. rewrite in_app_iff in N.
  unfold rem. rewrite filter_app. cbn [filter]. rewrite Z.eqb_refl. cbn [negb].
  fold (rem x l1) (rem x l2). rewrite !rem_notin; tauto.
Qed.
Lemma in_rem x y l : In y (rem x l) <-> In y l /\ y <> x.
Proof.
  unfold rem. rewrite filter_In. rewrite negb_true_iff, Z.eqb_neq. tauto.
Qed.
Lemma adj_remove_rem adj e w : adj_remove adj e w = rem (twin e) (rem e (adj w)).
Proof.
  unfold adj_remove, rem. induction (adj w) as [|a l IH]; simpl; auto.
  destruct (a =? e); cbn [negb andb filter]; auto.
  destruct (a =? twin e); cbn [negb]; auto. now rewrite IH.
Qed.
Lemma in_adj_remove adj e w x : In x (adj_remove adj e w) <-> In x (adj w) /\ x <> e /\ x <> twin e.
Proof. rewrite adj_remove_rem, !in_rem. tauto. Qed.

(** All arcs of the graph, vertex by vertex. *)
Definition all_arcs (g : graph) (adj : Z -> list Z) : list Z :=
  flat_map adj (zrange 1 (Z.to_nat (2 * gN g))).

Lemma in_all_arcs g adj e : chains g adj -> In e (all_arcs g adj) <-> exists v, In e (adj v).
Proof.
  intros C. unfold all_arcs. rewrite in_flat_map. split.
  - intros (v & _ & H). eauto.
  - intros (v & H). exists v. split; auto. apply in_zrange.
    pose proof (ch_isvertex _ _ _ _ C H) as Hv. unfold is_vertex in Hv. lia.
Qed.

Lemma NoDup_flat_map (f : Z -> list Z) (l : list Z) :
  NoDup l -> (forall v, NoDup (f v)) -> (forall v w e, In e (f v) -> In e (f w) -> v = w) ->
  NoDup (flat_map f l).
Proof.
  intros N Nf D. induction l as [|a l IH]; simpl; [constructor|].
  inversion N; subst. apply NoDup_app_intro; auto.
  intros x H3 H4. apply in_flat_map in H4. destruct H4 as (w & Hw & Hx).
  rewrite (D _ _ _ H3 Hx) in H1. contradiction.
Qed.

Lemma NoDup_all_arcs g adj : chains g adj -> NoDup (all_arcs g adj).
Proof.
  intros C. apply NoDup_flat_map; [apply NoDup_zrange|apply C|apply C].
Qed.

Definition hole_recs (g : graph) : list Z := gholes g ++ map twin (gholes g).

Lemma half_twin_ne a b : 0 <= a -> 0 <= b -> a = twin b -> a / 2 = b / 2.
Proof. intros Ha Hb ->. apply twin_half. lia. Qed.

Lemma NoDup_hole_recs g adj : rep g adj -> NoDup (hole_recs g).
Proof.
  intros R. pose proof (rep_storage _ _ R) as S.
  assert (H0 : forall h, In h (gholes g) -> 0 <= h) by (intros h H; pose proof (st_holes _ _ S h H); lia).
  pose proof (st_holes_nodup _ _ S) as Nd. unfold hole_recs.
  assert (Nh : NoDup (gholes g)) by (eapply NoDup_map_inv; exact Nd).
  assert (U : forall a b, In a (gholes g) -> In b (gholes g) -> a / 2 = b / 2 -> a = b).
  { clear -Nd. induction (gholes g) as [|x l IH]; simpl; [tauto|].
    cbn [map] in Nd. apply NoDup_cons_iff in Nd. destruct Nd as [Hx Nd].
    intros a b [<-|Ha] [<-|Hb] E; auto.
    - exfalso. apply Hx. rewrite E. apply in_map_iff. eauto.
    - exfalso. apply Hx. rewrite <- E. apply in_map_iff. eauto. }
  apply NoDup_app_intro; auto.
  - apply FinFun.Injective_map_NoDup; auto. intros a b E. now apply twin_inj.
  - intros x H1 H2. apply in_map_iff in H2. destruct H2 as (h & <- & Hh).
    assert (E : twin h = h).
    { apply U; auto. apply twin_half. auto. }
    exact (twin_ne _ E).
Qed.

Lemma arcs_partition g adj :
  rep g adj ->
  Permutation (all_arcs g adj ++ hole_recs g) (zrange 2 (Z.to_nat (gp_EdgeInUseIndexBound g - 2))).
Proof.
  intros R. pose proof (rep_storage _ _ R) as S. pose proof (rep_chains _ _ R) as C.
  assert (HB : 2 <= gp_EdgeInUseIndexBound g).
  { unfold gp_EdgeInUseIndexBound. pose proof (st_M _ _ S). lia. }
  apply NoDup_Permutation.
  - apply NoDup_app_intro; [apply NoDup_all_arcs; auto|eapply NoDup_hole_recs; eauto|].
    intros x H1 H2. apply (in_all_arcs g adj x C) in H1. destruct H1 as [v H1].
    pose proof (rep_nbr_vertex _ _ _ _ R H1) as V1. unfold is_vertex in V1.
    unfold hole_recs in H2. rewrite in_app_iff, in_map_iff in H2. destruct H2 as [H2|(h & <- & H2)].
    + destruct (st_holes _ _ S x H2) as (_ & Hn & _). unfold NIL in *; lia.
    + destruct (st_holes _ _ S h H2) as (_ & _ & Hn). unfold NIL in *; lia.
  - apply NoDup_zrange.
  - intros x. rewrite in_app_iff, (in_all_arcs g adj x C), in_zrange.
    replace (2 + Z.of_nat (Z.to_nat (gp_EdgeInUseIndexBound g - 2))) with (gp_EdgeInUseIndexBound g) by lia.
    split.
    + intros [[v H]|H]; [eapply st_used; eauto|].
      unfold hole_recs in H. rewrite in_app_iff, in_map_iff in H. destruct H as [H|(h & <- & H)].
      * apply (st_holes _ _ S x H).
      * pose proof (st_holes _ _ S h H) as (Hr & _). split; [apply twin_ge_2; lia|].
        apply twin_lt_even; [lia|apply even_bound|lia|lia].
    + intros Hx. destruct (st_cover _ _ S x Hx) as [H|H]; [left; eauto|].
      right. apply in_map_iff in H. destruct H as (h & E & H).
      pose proof (st_holes _ _ S h H) as (Hr & _).
      unfold hole_recs. rewrite in_app_iff, in_map_iff.
      destruct (div2_eq_twin x h ltac:(lia) ltac:(lia) (eq_sym E)) as [->|Ex]; auto.
      right. exists h. auto.
Qed.

Lemma all_arcs_length g adj : rep g adj -> Z.of_nat (length (all_arcs g adj)) = 2 * gM g.
Proof.
  intros R. pose proof (Permutation_length (arcs_partition _ _ R)) as H.
  rewrite app_length, zrange_length in H. unfold hole_recs in H.
  rewrite app_length, map_length in H. pose proof (st_M _ _ (rep_storage _ _ R)).
  unfold gp_EdgeInUseIndexBound in H. lia.
Qed.

Lemma sumdeg_flat adj n : sumdeg adj n = Z.of_nat (length (flat_map adj (zrange 1 n))).
Proof.
  induction n as [|n IH]; [reflexivity|].
  cbn [sumdeg]. rewrite IH. unfold zrange. rewrite seq_S, map_app, flat_map_app, app_length.
  cbn [map flat_map plus]. rewrite app_nil_r.
  replace (1 + Z.of_nat n) with (Z.of_nat (S n)) by lia. lia.
Qed.

Lemma rep_sumdeg g adj : rep g adj -> sumdeg adj (Z.to_nat (2 * gN g)) = 2 * gM g.
Proof. intros R. rewrite sumdeg_flat. apply (all_arcs_length _ _ R). Qed.

Lemma in_len_pos {A} (x : A) l : In x l -> (1 <= length l)%nat.
Proof. destruct l; simpl; [tauto|lia]. Qed.

Lemma rep_M_pos g adj v e : rep g adj -> In e (adj v) -> 1 <= gM g.
Proof.
  intros R H. pose proof (all_arcs_length _ _ R) as L.
  assert (H1 : In e (all_arcs g adj)) by (apply in_all_arcs; [apply R|eauto]).
  apply in_len_pos in H1. lia.
Qed.

(** ** Detaching one arc *)
Lemma detach_rem g adj v arc :
  chains g adj -> In arc (adj v) -> inE g (twin arc) = true -> enbr g (twin arc) = v ->
  wp (gp_DetachArc g arc)
     (fun g' => exists l1 l2, adj v = l1 ++ arc :: l2 /\ del_effect g g' v l1 l2 /\
                chains g' (fun w => rem arc (adj w))).
Proof.
  intros C Hin Ht Hn. destruct (in_split _ _ Hin) as (l1 & l2 & E).
  eapply wp_mono; [eapply detach_ok; eauto|]. intros g' D.
  exists l1, l2. split; [auto|split; [auto|]].
  eapply chains_ext; [eapply chains_delete; eauto|].
  intros w. unfold upd. destruct (Z.eqb_spec w v) as [->|Hw].
  - rewrite E. apply rem_split. rewrite <- E. apply C.
  - apply rem_notin. intros H. apply Hw. symmetry. eapply (ch_disj _ _ C v w arc); auto.
Qed.

Lemma del_effect_own g g' adj v l1 arc l2 :
  chains g adj -> adj v = l1 ++ arc :: l2 -> del_effect g g' v l1 l2 ->
  enext g' arc = enext g arc /\ eprev g' arc = eprev g arc.
Proof.
  intros C E [F En Ep _ _].
  assert (Nd : NoDup (l1 ++ arc :: l2)) by (rewrite <- E; apply C).
  apply NoDup_remove_2 in Nd. rewrite in_app_iff in Nd. rewrite En, Ep. split.
  - destruct l1 as [|a l1]; [reflexivity|]. cbn [isnil negb andb].
    rewrite eqb_false_neq; auto. intros ->. apply Nd. left. apply last_in; congruence.
  - destruct l2 as [|a l2]; [reflexivity|]. cbn [isnil negb andb hd].
    rewrite eqb_false_neq; auto. intros ->. apply Nd. right. simpl; auto.
Qed.

Lemma del_effect_out g g' adj v l1 arc l2 x :
  adj v = l1 ++ arc :: l2 -> del_effect g g' v l1 l2 -> (forall w, ~ In x (adj w)) ->
  enext g' x = enext g x /\ eprev g' x = eprev g x.
Proof.
  intros E [F En Ep _ _] Hn. specialize (Hn v). rewrite E, in_app_iff in Hn. simpl in Hn.
  rewrite En, Ep. split.
  - destruct l1 as [|a l1]; [reflexivity|]. cbn [isnil negb andb].
    rewrite eqb_false_neq; auto. intros ->. apply Hn. left. apply last_in; congruence.
  - destruct l2 as [|a l2]; [reflexivity|]. cbn [isnil negb andb hd].
    rewrite eqb_false_neq; auto. intros ->. apply Hn. right. simpl; auto.
Qed.

(** ** gp_HideEdge *)
Lemma twin_inE g adj v e : rep g adj -> In e (adj v) -> inE g (twin e) = true.
Proof.
  intros R H. destruct (rep_twins _ _ R _ _ H) as [_ H2].
  pose proof (ch_range _ _ (rep_chains _ _ R) _ _ H2). apply inE_true. lia.
Qed.

Lemma hide_edge_ok g adj e v :
  chains g adj -> twins_ok g adj -> In e (adj v) ->
  wp (gp_HideEdge g e)
     (fun g' => exists g1 l1 l2 m1 m2,
        adj v = l1 ++ e :: l2 /\ del_effect g g1 v l1 l2 /\
        chains g1 (fun w => rem e (adj w)) /\
        rem e (adj (enbr g e)) = m1 ++ twin e :: m2 /\ del_effect g1 g' (enbr g e) m1 m2 /\
        chains g' (adj_remove adj e) /\ frame_links g g').
Proof.
  intros C T Hin. destruct (T _ _ Hin) as [T1 T2].
  pose proof (ch_range _ _ C _ _ Hin) as R1. pose proof (ch_range _ _ C _ _ T2) as R2.
  unfold gp_HideEdge. change (gp_GetTwinArc e) with (twin e).
  apply wp_bind. eapply wp_mono.
  { apply (detach_rem g adj v e); auto. apply inE_true; lia. }
  intros g1 (l1 & l2 & E & D & C1). cbv beta.
  assert (F1 := de_frame _ _ _ _ _ D).
  assert (EB : gp_EdgeIndexBound g1 = gp_EdgeIndexBound g) by (apply frame_ebound; auto).
  eapply wp_mono.
  { apply (detach_rem g1 (fun w => rem e (adj w)) (enbr g e) (twin e)); auto.
    - apply in_rem. split; auto. apply twin_ne.
    - rewrite twin_invol. apply inE_true. lia.
    - rewrite twin_invol. now rewrite (fl_enbr _ _ F1). }
  intros g2 (m1 & m2 & E2 & D2 & C2).
  exists g1, l1, l2, m1, m2. repeat (split; [assumption|]). split.
  - eapply chains_ext; [exact C2|]. intros w. cbv beta. apply adj_remove_rem.
  - eapply frame_links_trans; [exact F1|apply D2].
Qed.

(** ** gp_DeleteEdge *)
Lemma init_edge_rec g e :
  inE g e = true ->
  _InitEdgeRec g e =
  Ret (set_eflags (set_enext (set_eprev (set_enbr g (upd (enbr g) e NIL)) (upd (eprev g) e NIL))
         (upd (enext g) e NIL)) (upd (eflags g) e 0)).
Proof.
  intros H. unfold _InitEdgeRec. rewrite set_nbr by auto. rewrite bind_ret.
  rewrite set_prev by exact H. rewrite bind_ret. rewrite set_next by exact H. rewrite bind_ret.
  rewrite wr_eflags_ok by exact H. reflexivity.
Qed.

Lemma pair_cases e x : 0 <= e -> (x = Z.ldiff e 1 \/ x = Z.ldiff e 1 + 1) <-> (x = e \/ x = twin e).
Proof.
  intros H. unfold twin. rewrite lxor_1 by lia.
  assert (E : Z.ldiff e 1 = if Z.even e then e else e - 1).
  { destruct e as [|p|p]; [reflexivity| |lia]. destruct p; reflexivity. }
  rewrite E. destruct (Z.even e); lia.
Qed.

Lemma clear_pair f e z x : 0 <= e ->
  upd (upd f (Z.ldiff e 1) z) (Z.ldiff e 1 + 1) z x = if (x =? e) || (x =? twin e) then z else (f x : Z).
Proof.
  intros H. unfold upd. pose proof (pair_cases e x H) as P.
  destruct (Z.eqb_spec x (Z.ldiff e 1 + 1)), (Z.eqb_spec x (Z.ldiff e 1)),
           (Z.eqb_spec x e), (Z.eqb_spec x (twin e)); simpl; auto; tauto.
Qed.

Lemma adj_link_ok g e l : inE g e = true -> link_ok l ->
  gp_GetAdjacentArc g e l = Ret (if l =? 0 then enext g e else eprev g e).
Proof.
  intros H [->| ->]; [rewrite gadj0|rewrite gadj1]; cbn [Z.eqb];
  [now rewrite get_next|now rewrite get_prev].
Qed.

Record delete_frame (g g' : graph) (e : Z) : Prop := {
  df_N : gN g' = gN g; df_cap : gCap g' = gCap g; df_M : gM g' = gM g - 1;
  df_vindex : vindex g' = vindex g; df_vflags : vflags g' = vflags g;
  df_enbr : forall x, enbr g' x = if (x =? e) || (x =? twin e) then NIL else enbr g x;
  df_eflags : forall x, eflags g' x = if (x =? e) || (x =? twin e) then 0 else eflags g x;
  df_holes : gholes g' = if e <? gp_EdgeInUseIndexBound g - 2 then e :: gholes g else gholes g;
  df_holesCap : gholesCap g' = gholesCap g;
  df_stack : gstack g' = gstack g; df_stackCap : gstackCap g' = gstackCap g;
  df_iflags : giflags g' = giflags g; df_embed : gembed g' = gembed g;
  df_VI : gVI g' = gVI g; df_X : gX g' = gX g }.

Lemma chains_agree g g' adj :
  chains g adj -> gN g' = gN g -> gp_EdgeIndexBound g <= gp_EdgeIndexBound g' ->
  (forall v, is_vertex g v -> vfirst g' v = vfirst g v /\ vlast g' v = vlast g v) ->
  (forall v e, In e (adj v) -> enext g' e = enext g e /\ eprev g' e = eprev g e) ->
  chains g' adj.
Proof.
  intros [A B L O N D R] EN EB HV HE.
  assert (V : forall v, is_vertex g' v <-> is_vertex g v) by (intros; unfold is_vertex; now rewrite EN).
  constructor; auto.
  - intros v Hv. apply V in Hv. rewrite (proj1 (HV v Hv)); auto.
  - intros v Hv. apply V in Hv. rewrite (proj2 (HV v Hv)); auto.
  - intros v Hv. apply V in Hv. eapply linked_ext; [|apply L; exact Hv].
    intros x Hx. destruct (HE v x Hx); auto.
  - intros v Hv. apply O. intros H. apply Hv, V, H.
  - intros v e H. specialize (R v e H). lia.
Qed.

Lemma delete_edge_ok g adj e link :
  rep g adj -> in_use g e -> link_ok link ->
  wp (gp_DeleteEdge g e link)
     (fun r => rep (fst r) (adj_remove adj e) /\ delete_frame g (fst r) e /\
               next_in (adj (enbr g (twin e))) e link (snd r) /\
               (forall x, (forall w, ~ In x (adj w)) -> enext (fst r) x = enext g x /\ eprev (fst r) x = eprev g x)).
Proof.
  intros R Hu Hl. pose proof (rep_storage _ _ R) as S. pose proof (rep_chains _ _ R) as C.
  apply (rep_in_use _ _ _ R) in Hu. destruct Hu as [v Hin].
  destruct (rep_twins _ _ R _ _ Hin) as [T1 T2]. rewrite T1.
  pose proof (ch_range _ _ C _ _ Hin) as R1. pose proof (ch_range _ _ C _ _ T2) as R2.
  pose proof (rep_M_pos _ _ _ _ R Hin) as HM.
  pose proof (st_used _ _ S _ _ Hin) as U1. pose proof (st_used _ _ S _ _ T2) as U2.
  unfold gp_DeleteEdge. rewrite adj_link_ok by (auto; apply inE_true; lia). rewrite bind_ret.
  assert (HH := hide_edge_ok g adj e v C (rep_twins _ _ R) Hin).
  unfold gp_HideEdge in HH. apply wp_inv in HH.
  destruct HH as (g2 & Eg2 & g1 & l1 & l2 & m1 & m2 & E1 & D1 & C1 & E2 & D2 & C2 & F).
  destruct (gp_DetachArc g e) as [g1'| |] eqn:ED1; cbn [bind] in Eg2; try discriminate.
  rewrite bind_ret, Eg2, bind_ret.
  assert (B2 : gp_EdgeIndexBound g2 = gp_EdgeIndexBound g) by (apply frame_ebound; auto).
  assert (P0 : forall x, x = Z.ldiff e 1 \/ x = Z.ldiff e 1 + 1 -> 0 <= x < gp_EdgeIndexBound g).
  { intros x Hx. apply pair_cases in Hx; [|lia]. destruct Hx as [->| ->]; lia. }
  rewrite init_edge_rec by (apply inE_true; rewrite B2; apply P0; auto). rewrite bind_ret.
  rewrite init_edge_rec.
  2:{ apply inE_true. change (0 <= Z.ldiff e 1 + 1 < gp_EdgeIndexBound g2). rewrite B2. apply P0; auto. }
  rewrite bind_ret. cbv zeta.
  match goal with |- wp (bind (if e <? gp_EdgeInUseIndexBound ?h then _ else _) _) _ => set (g3 := h) end.
  assert (HB3 : gp_EdgeInUseIndexBound g3 = gp_EdgeInUseIndexBound g - 2).
  { unfold gp_EdgeInUseIndexBound, g3. gsimp. rewrite (fl_M _ _ F), (fl_holes _ _ F). lia. }
  set (hs := if e <? gp_EdgeInUseIndexBound g - 2 then e :: gholes g else gholes g).
  assert (HX : (if e <? gp_EdgeInUseIndexBound g3 then holes_push g3 e else Ret g3) = Ret (set_gholes g3 hs)).
  { rewrite HB3. unfold hs. destruct (e <? gp_EdgeInUseIndexBound g - 2).
    - unfold holes_push. rewrite guard_true.
      + unfold g3. gsimp. rewrite (fl_holes _ _ F). reflexivity.
      + unfold g3. gsimp. rewrite (fl_holes _ _ F), (fl_holesCap _ _ F).
        pose proof (st_holescap _ _ S). pose proof (st_cap _ _ S) as Hc.
        unfold gp_EdgeInUseIndexBound, gp_EdgeIndexBound in Hc.
        pose proof (st_even _ _ S) as Hev. rewrite Z.even_spec in Hev. destruct Hev as [k Hk].
        rewrite Hk in *. replace (2 * k / 2) with k in * by (rewrite Z.mul_comm, Z.div_mul; lia). lia.
    - rewrite <- (fl_holes _ _ F). unfold g3. destruct g2; reflexivity. }
  rewrite HX, bind_ret. apply wp_ret. cbn [fst snd].
  set (g4 := set_gholes g3 hs).
  assert (DF : delete_frame g g4 e).
  { constructor; unfold g4, g3; gsimp; try apply F; auto.
    - rewrite (fl_M _ _ F). reflexivity.
    - intros x. rewrite clear_pair by lia. now rewrite (fl_enbr _ _ F).
    - intros x. rewrite clear_pair by lia. now rewrite (fl_eflags _ _ F). }
  assert (LK : forall x, x <> e -> x <> twin e -> enext g4 x = enext g2 x /\ eprev g4 x = eprev g2 x).
  { intros x H1 H2. unfold g4, g3. gsimp. rewrite !clear_pair by lia.
    rewrite (eqb_false_neq _ _ H1), (eqb_false_neq _ _ H2). auto. }
  assert (HB4 : gp_EdgeInUseIndexBound g4 =
     if e <? gp_EdgeInUseIndexBound g - 2 then gp_EdgeInUseIndexBound g else gp_EdgeInUseIndexBound g - 2).
  { unfold gp_EdgeInUseIndexBound at 1. rewrite (df_M _ _ _ DF), (df_holes _ _ _ DF).
    destruct (e <? gp_EdgeInUseIndexBound g - 2); cbn [length]; unfold gp_EdgeInUseIndexBound; lia. }
  (* e is one of the last two records, or below them *)
  assert (Hlast : (e <? gp_EdgeInUseIndexBound g - 2) = false ->
            forall x, x <> e -> x <> twin e -> 2 <= x < gp_EdgeInUseIndexBound g -> x < gp_EdgeInUseIndexBound g - 2).
  { intros Hlt x H1 H2 Hx. destruct (Z_lt_dec x (gp_EdgeInUseIndexBound g - 2)); auto. exfalso.
    pose proof (even_bound g) as Hev. rewrite Z.even_spec in Hev. destruct Hev as [k Hk].
    destruct (div2_eq_twin x e ltac:(lia) ltac:(lia)) as [H|H]; auto.
    rewrite Hk in *. Z.div_mod_to_equations; lia. }
  split; [|split; [exact DF|split]].
  - constructor.
    + eapply chains_agree; [exact C2|..].
      * rewrite (df_N _ _ _ DF). symmetry. apply F.
      * unfold gp_EdgeIndexBound. rewrite (df_cap _ _ _ DF), (fl_cap _ _ F). lia.
      * intros w _. split; reflexivity.
      * intros w x H. apply in_adj_remove in H. apply LK; tauto.
    + intros w x. rewrite in_adj_remove. intros (H & H1 & H2).
      destruct (rep_twins _ _ R _ _ H) as [P1 P2].
      assert (twin x <> e) by (intros HH; apply H2; now rewrite <- HH, twin_invol).
      assert (twin x <> twin e) by (intros HH; apply H1; now apply twin_inj).
      rewrite !(df_enbr _ _ _ DF).
      rewrite !eqb_false_neq by auto. cbn [orb]. split; auto. apply in_adj_remove. auto.
    + constructor.
      * rewrite (df_N _ _ _ DF). apply S.
      * rewrite (df_M _ _ _ DF). lia.
      * rewrite HB4. unfold gp_EdgeIndexBound. rewrite (df_cap _ _ _ DF).
        pose proof (st_cap _ _ S) as Hc. unfold gp_EdgeIndexBound in Hc.
        destruct (e <? gp_EdgeInUseIndexBound g - 2); lia.
      * rewrite (df_cap _ _ _ DF). apply S.
      * rewrite (df_cap _ _ _ DF), (df_holesCap _ _ _ DF). apply S.
      * intros w x. rewrite in_adj_remove, HB4. intros (H & H1 & H2).
        pose proof (st_used _ _ S _ _ H) as Ux.
        destruct (e <? gp_EdgeInUseIndexBound g - 2) eqn:Elt; auto.
        specialize (Hlast eq_refl x H1 H2 Ux). lia.
      * intros h. rewrite (df_holes _ _ _ DF), HB4.
        assert (HO : In h (gholes g) -> h <> e /\ h <> twin e).
        { intros Hh. destruct (st_holes _ _ S h Hh) as (_ & Hn1 & Hn2).
          pose proof (rep_nbr_vertex _ _ _ _ R Hin) as Q1. pose proof (rep_nbr_vertex _ _ _ _ R T2) as Q2.
          unfold is_vertex, NIL in *. split; intros ->; lia. }
        intros Hh. rewrite !(df_enbr _ _ _ DF).
        assert (Hcase : h = e \/ (In h (gholes g) /\ h <> e /\ h <> twin e)).
        { destruct (e <? gp_EdgeInUseIndexBound g - 2); [destruct Hh as [->|Hh]|]; auto. }
        destruct Hcase as [->|(Hh' & N1 & N2)].
        -- rewrite !Z.eqb_refl. cbn [orb]. rewrite orb_true_r.
           destruct (e <? gp_EdgeInUseIndexBound g - 2) eqn:Elt; [repeat split; lia|].
           destruct (HO Hh) as [Hc _]. congruence.
        -- destruct (st_holes _ _ S h Hh') as (Hr & Hn1 & Hn2).
           assert (twin h <> e) by (intros HH; apply N2; now rewrite <- HH, twin_invol).
           assert (twin h <> twin e) by (intros HH; apply N1; now apply twin_inj).
           rewrite !eqb_false_neq by auto. cbn [orb]. repeat split; auto; try lia.
           destruct (e <? gp_EdgeInUseIndexBound g - 2) eqn:Elt; [lia|].
           apply (Hlast eq_refl h N1 N2 Hr).
      * rewrite (df_holes _ _ _ DF).
        destruct (e <? gp_EdgeInUseIndexBound g - 2); [|apply S].
        cbn [map]. constructor; [|apply S].
        intros H. apply in_map_iff in H. destruct H as (h & Eh & Hh).
        destruct (st_holes _ _ S h Hh) as (Hr & Hn1 & Hn2).
        pose proof (rep_nbr_vertex _ _ _ _ R Hin) as Q1. pose proof (rep_nbr_vertex _ _ _ _ R T2) as Q2.
        unfold is_vertex, NIL in *.
        destruct (div2_eq_twin h e ltac:(lia) ltac:(lia) Eh) as [->|Ex]; [lia|].
        change (Z.lxor e 1) with (twin e) in Ex. subst h. lia.
      * intros x. rewrite HB4. intros Hx. rewrite (df_holes _ _ _ DF), (df_enbr _ _ _ DF).
        assert (Hx' : 2 <= x < gp_EdgeInUseIndexBound g) by (destruct (e <? gp_EdgeInUseIndexBound g - 2); lia).
        destruct (Z.eq_dec (x / 2) (e / 2)) as [Hq|Hq].
        { right. destruct (e <? gp_EdgeInUseIndexBound g - 2) eqn:Elt.
          - cbn [map]. left. auto.
          - exfalso. pose proof (even_bound g) as Hev. rewrite Z.even_spec in Hev. destruct Hev as [k Hk].
            rewrite Hk in *. Z.div_mod_to_equations; lia. }
        assert (x <> e) by congruence.
        assert (x <> twin e) by (intros ->; apply Hq; apply twin_half; lia).
        assert (twin x <> e) by (intros HH; apply H0; now rewrite <- HH, twin_invol).
        assert (twin x <> twin e) by (intros HH; apply H; now apply twin_inj).
        rewrite !eqb_false_neq by auto. cbn [orb].
        destruct (st_cover _ _ S x Hx') as [Hc|Hc].
        -- left. apply in_adj_remove. auto.
        -- right. destruct (e <? gp_EdgeInUseIndexBound g - 2); auto. cbn [map]. right; auto.
  - exists l1, l2. split; auto.
    destruct (chains_links _ _ _ _ _ _ C E1) as [Lp Ln]. rewrite Lp, Ln. reflexivity.
  - intros x Hx.
    assert (x <> e) by (intros ->; exact (Hx _ Hin)).
    assert (x <> twin e) by (intros ->; exact (Hx _ T2)).
    destruct (LK x H H0) as [K1 K2]. rewrite K1, K2.
    destruct (del_effect_out g1 g2 (fun w => rem e (adj w)) _ _ _ _ x E2 D2) as [Q1 Q2].
    { intros w Hw. apply in_rem in Hw. exact (Hx _ (proj1 Hw)). }
    destruct (del_effect_out g g1 adj _ _ _ _ x E1 D1 Hx) as [Q3 Q4].
    rewrite Q1, Q2, Q3, Q4. auto.
Qed.
