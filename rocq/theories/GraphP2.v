(** * GraphP2: adding and inserting edges. *)
From Coq Require Import ZifyBool Permutation.
From Verif Require Import Base BaseP GraphRec GraphM GraphSpec GSimp LinkP GraphP.

(** ** twin *)
Lemma twin_invol e : twin (twin e) = e.
Proof. apply twin_twin. Qed.
Lemma twin_ne e : twin e <> e.
Proof. apply twin_neq. Qed.
Lemma twin_lt_even e k : 0 <= e -> Z.even k = true -> 0 <= k -> (twin e < k <-> e < k).
Proof. intros. pose proof (BaseP.twin_range e k H H0 H1). unfold twin. lia. Qed.
Lemma twin_ge_2 e : 2 <= e -> 2 <= twin e.
Proof. intros H. pose proof (BaseP.twin_ge e 2 ltac:(lia) eq_refl ltac:(lia)). unfold twin. lia. Qed.
Lemma twin_half e : 0 <= e -> twin e / 2 = e / 2.
Proof. apply twin_div2. Qed.
Lemma even_bound g : Z.even (gp_EdgeInUseIndexBound g) = true.
Proof.
  unfold gp_EdgeInUseIndexBound. rewrite Z.even_add_mul_2. reflexivity.
Qed.
Lemma twin_eq_iff a b : twin a = b <-> a = twin b.
Proof. split; [intros <- | intros ->]; now rewrite twin_invol. Qed.

(** ** ins_at *)
Lemma ins_after_split e x l1 l2 : ~ In e l1 -> ins_after e x (l1 ++ e :: l2) = l1 ++ e :: x :: l2.
Proof.
  induction l1 as [|a l1 IH]; simpl; intros H.
  - now rewrite Z.eqb_refl.
  - rewrite eqb_false_neq by tauto. rewrite IH by tauto. reflexivity.
Qed.
Lemma ins_before_split e x l1 l2 : ~ In e l1 -> ins_before e x (l1 ++ e :: l2) = l1 ++ x :: e :: l2.
Proof.
  induction l1 as [|a l1 IH]; simpl; intros H.
  - now rewrite Z.eqb_refl.
  - rewrite eqb_false_neq by tauto. rewrite IH by tauto. reflexivity.
Qed.

Lemma ins_at_arc e link x l1 l2 :
  e <> NIL -> ~ In e l1 ->
  ins_at e link x (l1 ++ e :: l2) =
  (if link =? 0 then l1 ++ [e] else l1) ++ x :: (if link =? 0 then l2 else e :: l2).
Proof.
  intros H1 H2. unfold ins_at. rewrite eqb_false_neq by auto.
  destruct (link =? 0).
  - rewrite ins_after_split by auto. now rewrite <- app_assoc.
  - now rewrite ins_before_split by auto.
Qed.

Lemma in_ins_at e link x l y :
  e = NIL \/ In e l -> NoDup l -> ~ In NIL l ->
  (In y (ins_at e link x l) <-> y = x \/ In y l).
Proof.
  intros H N HN. destruct (Z.eq_dec e NIL) as [->|Hne].
  - unfold ins_at. rewrite Z.eqb_refl. destruct (link =? 0); simpl.
    + split; intros [A|A]; auto.
    + rewrite in_app_iff; simpl. split; intuition.
  - destruct H as [H|H]; [contradiction|].
    apply in_split in H. destruct H as (l1 & l2 & ->).
    rewrite ins_at_arc; auto.
    + destruct (link =? 0); rewrite ?in_app_iff; simpl; rewrite ?in_app_iff; simpl; intuition.
    + apply NoDup_remove_2 in N. rewrite in_app_iff in N. tauto.
Qed.

(** ** gp_AttachArc, as one statement *)
Definition links_kept (g g' : graph) (adj : Z -> list Z) (new : Z) : Prop :=
  forall x, x <> new -> (forall w, ~ In x (adj w)) -> enext g' x = enext g x /\ eprev g' x = eprev g x.

Lemma ins_effect_kept g g' adj v l1 l2 new :
  adj v = l1 ++ l2 -> ins_effect g g' v l1 l2 new -> links_kept g g' adj new.
Proof.
  intros E [F En Ep _ _] x Hx Hn. specialize (Hn v). rewrite E, in_app_iff in Hn.
  rewrite En, Ep, (eqb_false_neq _ _ Hx). split.
  - destruct l1 as [|a l1]; [reflexivity|]. cbn [isnil negb andb].
    rewrite eqb_false_neq; auto. intros ->. apply Hn. left. apply last_in; congruence.
  - destruct l2 as [|a l2]; [reflexivity|]. cbn [isnil negb andb hd].
    rewrite eqb_false_neq; auto. intros ->. apply Hn. right. simpl; auto.
Qed.

Lemma attach_ok g adj v e link new :
  chains g adj -> is_vertex g v -> (e = NIL \/ In e (adj v)) -> link_ok link ->
  (forall w, ~ In new (adj w)) -> 2 <= new < gp_EdgeIndexBound g ->
  wp (gp_AttachArc g v e link new)
     (fun g' => chains g' (upd adj v (ins_at e link new (adj v))) /\ frame_links g g' /\
                links_kept g g' adj new /\
                (forall w, w <> v -> vfirst g' w = vfirst g w /\ vlast g' w = vlast g w)).
Proof.
  intros C Hv He Hl Hf Hr.
  assert (K : forall l1 l2 g', adj v = l1 ++ l2 -> ins_at e link new (adj v) = l1 ++ new :: l2 ->
     ins_effect g g' v l1 l2 new ->
     chains g' (upd adj v (ins_at e link new (adj v))) /\ frame_links g g' /\
     links_kept g g' adj new /\
     (forall w, w <> v -> vfirst g' w = vfirst g w /\ vlast g' w = vlast g w)).
  { intros l1 l2 g' E1 E2 I. split; [|split; [|split]].
    - rewrite E2. eapply chains_insert; eauto.
    - apply I.
    - eapply ins_effect_kept; eauto.
    - intros w Hw. rewrite (ie_first _ _ _ _ _ _ I), (ie_last _ _ _ _ _ _ I).
      rewrite (eqb_false_neq _ _ Hw), !andb_false_r. auto. }
  destruct (Z.eq_dec e NIL) as [->|Hne].
  - eapply wp_mono; [eapply attach_nil_ok; eauto|]. cbv beta. intros g' I.
    eapply K; [| |exact I].
    + destruct (link =? 0); simpl; auto. now rewrite app_nil_r.
    + unfold ins_at. rewrite Z.eqb_refl. destruct (link =? 0); simpl; auto.
  - destruct He as [He|He]; [contradiction|].
    apply in_split in He. destruct He as (l1 & l2 & E).
    assert (Nd : NoDup (l1 ++ e :: l2)) by (rewrite <- E; apply C).
    eapply wp_mono; [eapply attach_arc_ok; eauto|]. cbv beta. intros g' I.
    eapply K; [| |exact I].
    + rewrite E. destruct (link =? 0); simpl; auto. now rewrite <- app_assoc.
    + rewrite E. apply ins_at_arc; auto.
      apply NoDup_remove_2 in Nd. rewrite in_app_iff in Nd. tauto.
Qed.

Lemma chains_congr g g' adj :
  gN g' = gN g -> gCap g' = gCap g -> vfirst g' = vfirst g -> vlast g' = vlast g ->
  enext g' = enext g -> eprev g' = eprev g -> chains g adj -> chains g' adj.
Proof.
  intros E1 E2 E3 E4 E5 E6 [A B C D E F G].
  constructor; unfold is_vertex, gp_EdgeIndexBound in *; rewrite ?E1, ?E2, ?E3, ?E4, ?E5, ?E6; auto.
Qed.

(** ** Facts about a well-formed graph *)
Lemma rep_nonil g adj v : rep g adj -> ~ In NIL (adj v).
Proof. intros R H. exact (ch_nonnil _ _ _ _ (rep_chains _ _ R) H eq_refl). Qed.

Lemma rep_nbr_vertex g adj v e : rep g adj -> In e (adj v) -> is_vertex g (enbr g e).
Proof.
  intros R H. destruct (rep_twins _ _ R _ _ H) as [_ H2].
  eapply ch_isvertex; [apply R|exact H2].
Qed.

Lemma rep_arc_of g adj v e : rep g adj -> (arc_of g v e <-> In e (adj v)).
Proof.
  intros R. split.
  - intros (H1 & H2 & H3). destruct (st_cover _ _ (rep_storage _ _ R) e H1) as [H|H].
    + now rewrite H3 in H.
    + apply in_map_iff in H. destruct H as (h & Hh & Hin).
      destruct (st_holes _ _ (rep_storage _ _ R) h Hin) as (Hr & Hn & Ht).
      exfalso. destruct (div2_eq_twin h e ltac:(lia) ltac:(lia) Hh) as [->| ->]; auto.
      apply H2. rewrite <- (twin_invol e). exact Ht.
  - intros H. destruct (rep_twins _ _ R _ _ H) as [T1 T2].
    split; [|split]; auto.
    + eapply st_used; [apply R|exact H].
    + pose proof (rep_nbr_vertex _ _ _ _ R H) as Hv. unfold is_vertex, NIL in *; lia.
Qed.

Lemma rep_in_use g adj e : rep g adj -> (in_use g e <-> exists v, In e (adj v)).
Proof.
  intros R. split.
  - intros [H1 H2]. exists (enbr g (twin e)). apply (rep_arc_of _ _ _ _ R). split; auto.
  - intros [v H]. apply (rep_arc_of _ _ _ _ R) in H. destruct H as (A & B & _). split; auto.
Qed.

Lemma rep_unique g adj adj' : rep g adj -> rep g adj' -> forall v, adj v = adj' v.
Proof. intros R R'. eapply chains_unique; [apply R|apply R']. Qed.

(** ** Taking a storage slot *)
Lemma even_add2 c : Z.even (2 + c) = Z.even c.
Proof. replace (2 + c) with (c + 2 * 1) by lia. apply Z.even_add_mul_2. Qed.

Lemma slot_facts g adj :
  rep g adj -> gM g < gCap g / 2 ->
  let vpos := snd (take_edge_slot g) in
  let upos := twin vpos in
  2 <= vpos < gp_EdgeIndexBound g /\ 2 <= upos < gp_EdgeIndexBound g /\
  (forall w, ~ In vpos (adj w)) /\ (forall w, ~ In upos (adj w)).
Proof.
  intros R HM vpos upos. pose proof (rep_storage _ _ R) as S.
  pose proof (st_M _ _ S). pose proof (st_cap _ _ S) as Hc.
  assert (Heb : Z.even (gp_EdgeIndexBound g) = true).
  { unfold gp_EdgeIndexBound. rewrite even_add2. apply S. }
  assert (Hv : 2 <= vpos < gp_EdgeIndexBound g).
  { subst vpos. unfold take_edge_slot.
    destruct (gholes g) as [|h hs] eqn:E; cbn [snd].
    - unfold gp_EdgeInUseIndexBound, gp_EdgeIndexBound in *. rewrite E in *. cbn [length] in *.
      pose proof (Z.mul_div_le (gCap g) 2 ltac:(lia)).
      lia.
    - assert (Hin : In h (gholes g)) by (rewrite E; simpl; auto).
      pose proof (st_holes _ _ S h Hin). lia. }
  assert (Hu : 2 <= upos < gp_EdgeIndexBound g).
  { subst upos. split; [apply twin_ge_2; lia|].
    apply twin_lt_even; auto; lia. }
  assert (Hf : forall w, ~ In vpos (adj w)).
  { intros w Hin. subst vpos. unfold take_edge_slot in Hin, Hv.
    destruct (gholes g) as [|h hs] eqn:E; cbn [snd] in *.
    - pose proof (st_used _ _ S _ _ Hin). lia.
    - assert (Hh : In h (gholes g)) by (rewrite E; simpl; auto).
      destruct (st_holes _ _ S h Hh) as (_ & Hn & _).
      pose proof (rep_nbr_vertex _ _ _ _ R Hin). unfold is_vertex, NIL in *. lia. }
  split; [auto|split; [auto|split; [auto|]]].
  intros w Hin. destruct (rep_twins _ _ R _ _ Hin) as [_ Ht].
  unfold upos in Ht. rewrite twin_invol in Ht. exact (Hf _ Ht).
Qed.

(** Everything but links, neighbours, M and holes is unchanged. *)
Record insert_frame (g g' : graph) : Prop := {
  if_N : gN g' = gN g; if_cap : gCap g' = gCap g;
  if_M : gM g' = gM g + 1;
  if_vindex : vindex g' = vindex g; if_vflags : vflags g' = vflags g; if_eflags : eflags g' = eflags g;
  if_holes : gholes g' = tl (gholes g); if_holesCap : gholesCap g' = gholesCap g;
  if_stack : gstack g' = gstack g; if_stackCap : gstackCap g' = gstackCap g;
  if_iflags : giflags g' = giflags g; if_embed : gembed g' = gembed g;
  if_VI : gVI g' = gVI g; if_X : gX g' = gX g }.

(** The common body of gp_AddEdge and gp_InsertEdge. *)
Definition insert_body (g : graph) (u eu ul v ev vl : Z) : res (graph * Z) :=
  let '(g, vpos) := take_edge_slot g in
  let upos := gp_GetTwinArc vpos in
  g <- gp_SetNeighbor g upos v ;;
  g <- gp_AttachArc g u eu ul upos ;;
  g <- gp_SetNeighbor g vpos u ;;
  g <- gp_AttachArc g v ev vl vpos ;;
  Ret (set_gM g (gM g + 1), C_OK).

Record insert_post (g g' : graph) (adj : Z -> list Z) (u eu ul v ev vl : Z) : Prop := {
  ip_rep : rep g' (adj_insert adj u eu ul v ev vl (twin (snd (take_edge_slot g))));
  ip_frame : insert_frame g g';
  ip_enbr : forall x, enbr g' x = if x =? snd (take_edge_slot g) then u
                                  else if x =? twin (snd (take_edge_slot g)) then v else enbr g x;
  ip_links : forall x, x <> snd (take_edge_slot g) -> x <> twin (snd (take_edge_slot g)) ->
               (forall w, ~ In x (adj w)) -> enext g' x = enext g x /\ eprev g' x = eprev g x;
  ip_vout : forall w, w <> u -> w <> v -> vfirst g' w = vfirst g w /\ vlast g' w = vlast g w }.

Lemma in_adj_insert g adj u eu ul v ev vl a w x :
  chains g adj -> is_vertex g u ->
  (eu = NIL \/ In eu (adj u)) -> (ev = NIL \/ In ev (adj v)) -> a <> NIL -> (forall w, ~ In a (adj w)) ->
  (In x (adj_insert adj u eu ul v ev vl a w) <-> In x (adj w) \/ (x = a /\ w = u) \/ (x = twin a /\ w = v)).
Proof.
  intros C Hu Heu Hev Ha Hf. unfold adj_insert.
  assert (NN : forall w, ~ In NIL (adj w)).
  { intros w' H. exact (ch_nonnil _ _ _ _ C H eq_refl). }
  assert (I1 : forall y, In y (ins_at eu ul a (adj u)) <-> y = a \/ In y (adj u)).
  { intros y. apply in_ins_at; auto. apply C. }
  assert (N1 : NoDup (ins_at eu ul a (adj u))).
  { destruct (Z.eq_dec eu NIL) as [->|Hne].
    - unfold ins_at. rewrite Z.eqb_refl. destruct (ul =? 0).
      + constructor; [apply Hf|apply C].
      + apply NoDup_mid. rewrite app_nil_r. split; [apply C|apply Hf].
    - destruct Heu as [|Heu]; [contradiction|].
      pose proof (ch_nodup _ _ C u) as Nd. pose proof (Hf u) as Hfu.
      apply in_split in Heu. destruct Heu as (l1 & l2 & E). rewrite E in *.
      rewrite ins_at_arc; auto.
      + apply NoDup_mid. assert (E' : (if ul =? 0 then l1 ++ [eu] else l1) ++ (if ul =? 0 then l2 else eu :: l2)
            = l1 ++ eu :: l2). { destruct (ul =? 0); auto. now rewrite <- app_assoc. }
        rewrite E'. split; auto.
      + apply NoDup_remove_2 in Nd. rewrite in_app_iff in Nd. tauto. }
  unfold upd at 1. destruct (Z.eqb_spec w v) as [->|Hw].
  - rewrite in_ins_at.
    + unfold upd. destruct (Z.eqb_spec v u) as [->|Hvu].
      * rewrite I1. intuition.
      * split; [intros [->|H]; auto|]. intros [H|[[_ H]|[-> _]]]; auto. contradiction.
    + unfold upd. destruct (Z.eqb_spec v u) as [->|Hvu]; auto.
      destruct Hev as [|Hev]; auto. right. apply I1. auto.
    + unfold upd. destruct (Z.eqb_spec v u) as [->|Hvu]; auto. apply C.
    + unfold upd. destruct (Z.eqb_spec v u) as [->|Hvu]; auto.
      intros H. apply I1 in H. destruct H as [H|H]; [congruence|exact (NN _ H)].
  - unfold upd. destruct (Z.eqb_spec w u) as [->|Hwu].
    + rewrite I1. intuition.
    + intuition.
Qed.

Lemma insert_body_ok g adj u eu ul v ev vl :
  rep g adj -> is_vertex g u -> is_vertex g v ->
  (eu = NIL \/ In eu (adj u)) -> (ev = NIL \/ In ev (adj v)) -> link_ok ul -> link_ok vl ->
  gM g < gCap g / 2 ->
  wp (insert_body g u eu ul v ev vl)
     (fun r => snd r = C_OK /\ insert_post g (fst r) adj u eu ul v ev vl).
Proof.
  intros R Hu Hv Heu Hev Hul Hvl HM.
  destruct (slot_facts g adj R HM) as (Sv & Su & Fv & Fu).
  unfold insert_body.
  destruct (take_edge_slot g) as [g1 vpos] eqn:ET. cbn [snd] in *.
  assert (EG : g1 = set_gholes g (tl (gholes g))).
  { unfold take_edge_slot in ET. destruct (gholes g) as [|h hs] eqn:EH; injection ET as <- _.
    - destruct g; simpl in *; subst; reflexivity.
    - reflexivity. }
  change (gp_GetTwinArc vpos) with (twin vpos). set (upos := twin vpos) in *.
  assert (C1 : chains g1 adj).
  { subst g1. eapply chains_congr; [..|apply (rep_chains _ _ R)]; reflexivity. }
  assert (B1 : gp_EdgeIndexBound g1 = gp_EdgeIndexBound g) by (subst g1; reflexivity).
  assert (V1 : forall w, is_vertex g1 w <-> is_vertex g w) by (subst g1; reflexivity).
  rewrite set_nbr by (apply inE_true; rewrite B1; lia). rewrite bind_ret.
  set (g2 := set_enbr g1 (upd (enbr g1) upos v)).
  assert (C2 : chains g2 adj) by (eapply chains_congr; [..|exact C1]; reflexivity).
  apply wp_bind. eapply wp_mono.
  { apply (attach_ok g2 adj u eu ul upos C2); auto.
    - apply (V1 u). exact Hu.
    - change (gp_EdgeIndexBound g2) with (gp_EdgeIndexBound g1). rewrite B1. exact Su. }
  intros g3 (C3 & F3 & K3 & V3). cbv beta.
  set (adj1 := upd adj u (ins_at eu ul upos (adj u))) in *.
  assert (B3 : gp_EdgeIndexBound g3 = gp_EdgeIndexBound g).
  { rewrite (frame_ebound _ _ F3). exact B1. }
  rewrite set_nbr by (apply inE_true; lia). rewrite bind_ret.
  set (g4 := set_enbr g3 (upd (enbr g3) vpos u)).
  assert (C4 : chains g4 adj1) by (eapply chains_congr; [..|exact C3]; reflexivity).
  assert (NN : forall w, ~ In NIL (adj w)) by (intros w; eapply rep_nonil; eauto).
  assert (I1 : forall y, In y (ins_at eu ul upos (adj u)) <-> y = upos \/ In y (adj u)).
  { intros y. apply in_ins_at; auto. apply (rep_chains _ _ R). }
  assert (Hup : upos <> vpos) by (unfold upos; apply twin_ne).
  assert (V4 : is_vertex g4 v).
  { unfold is_vertex in *. change (gN g4) with (gN g3). rewrite (fl_N _ _ F3). subst g1. exact Hv. }
  apply wp_bind. eapply wp_mono.
  { apply (attach_ok g4 adj1 v ev vl vpos C4); auto.
    - destruct Hev as [Hev|Hev]; auto. right. unfold adj1, upd.
      destruct (Z.eqb_spec v u) as [->|]; auto. apply I1. auto.
    - intros w. unfold adj1, upd. destruct (Z.eqb_spec w u) as [->|]; auto.
      rewrite I1. intros [H|H]; [congruence|exact (Fv _ H)].
    - change (gp_EdgeIndexBound g4) with (gp_EdgeIndexBound g3). lia. }
  intros g5 (C5 & F5 & K5 & V5). cbv beta. apply wp_ret. cbn [fst snd]. split; [reflexivity|].
  assert (TU : twin upos = vpos) by apply twin_invol.
  assert (HaN : upos <> NIL) by (unfold NIL; lia).
  assert (E5 : enbr g5 = upd (upd (enbr g) upos v) vpos u).
  { rewrite (fl_enbr _ _ F5). unfold g4. gsimp. rewrite (fl_enbr _ _ F3). unfold g2. subst g1. reflexivity. }
  assert (IA : forall w x, In x (adj_insert adj u eu ul v ev vl upos w) <->
               In x (adj w) \/ (x = upos /\ w = u) \/ (x = vpos /\ w = v)).
  { intros w x. rewrite (in_adj_insert g); auto.
    - rewrite TU. tauto.
    - apply R. }
  assert (Hadj : upd adj1 v (ins_at ev vl vpos (adj1 v)) = adj_insert adj u eu ul v ev vl upos).
  { unfold adj_insert, adj1. rewrite TU. reflexivity. }
  rewrite Hadj in C5.
  assert (FR : insert_frame g (set_gM g5 (gM g5 + 1))).
  { constructor; gsimp.
    - rewrite (fl_N _ _ F5). unfold g4; gsimp. rewrite (fl_N _ _ F3). unfold g2; gsimp. subst g1; reflexivity.
    - rewrite (fl_cap _ _ F5). unfold g4; gsimp. rewrite (fl_cap _ _ F3). unfold g2; gsimp. subst g1; reflexivity.
    - rewrite (fl_M _ _ F5). unfold g4; gsimp. rewrite (fl_M _ _ F3). unfold g2; gsimp. subst g1; reflexivity.
    - rewrite (fl_vindex _ _ F5). unfold g4; gsimp. rewrite (fl_vindex _ _ F3). unfold g2; gsimp. subst g1; reflexivity.
    - rewrite (fl_vflags _ _ F5). unfold g4; gsimp. rewrite (fl_vflags _ _ F3). unfold g2; gsimp. subst g1; reflexivity.
    - rewrite (fl_eflags _ _ F5). unfold g4; gsimp. rewrite (fl_eflags _ _ F3). unfold g2; gsimp. subst g1; reflexivity.
    - rewrite (fl_holes _ _ F5). unfold g4; gsimp. rewrite (fl_holes _ _ F3). unfold g2; gsimp. subst g1; reflexivity.
    - rewrite (fl_holesCap _ _ F5). unfold g4; gsimp. rewrite (fl_holesCap _ _ F3). unfold g2; gsimp. subst g1; reflexivity.
    - rewrite (fl_stack _ _ F5). unfold g4; gsimp. rewrite (fl_stack _ _ F3). unfold g2; gsimp. subst g1; reflexivity.
    - rewrite (fl_stackCap _ _ F5). unfold g4; gsimp. rewrite (fl_stackCap _ _ F3). unfold g2; gsimp. subst g1; reflexivity.
    - rewrite (fl_iflags _ _ F5). unfold g4; gsimp. rewrite (fl_iflags _ _ F3). unfold g2; gsimp. subst g1; reflexivity.
    - rewrite (fl_embed _ _ F5). unfold g4; gsimp. rewrite (fl_embed _ _ F3). unfold g2; gsimp. subst g1; reflexivity.
    - rewrite (fl_VI _ _ F5). unfold g4; gsimp. rewrite (fl_VI _ _ F3). unfold g2; gsimp. subst g1; reflexivity.
    - rewrite (fl_X _ _ F5). unfold g4; gsimp. rewrite (fl_X _ _ F3). unfold g2; gsimp. subst g1; reflexivity. }
  pose proof (rep_storage _ _ R) as S.
  assert (Hbound : gp_EdgeInUseIndexBound (set_gM g5 (gM g5 + 1)) =
                   match gholes g with [] => gp_EdgeInUseIndexBound g + 2 | _ => gp_EdgeInUseIndexBound g end).
  { unfold gp_EdgeInUseIndexBound. rewrite (if_M _ _ FR), (if_holes _ _ FR).
    destruct (gholes g); cbn [tl length]; lia. }
  assert (Hvp : (gholes g = [] /\ vpos = gp_EdgeInUseIndexBound g) \/ (exists hs, gholes g = vpos :: hs)).
  { unfold take_edge_slot in ET. destruct (gholes g) as [|h hs]; injection ET as _ <-; eauto. }
  constructor.
  - (* rep *)
    rewrite ET. cbn [snd]. fold upos. constructor.
    + eapply chains_congr; [..|exact C5]; reflexivity.
    + intros w e. rewrite IA. gsimp. rewrite E5. intros [H|[[-> ->]|[-> ->]]].
      * destruct (rep_twins _ _ R _ _ H) as [T1 T2].
        assert (e <> vpos) by (intros ->; exact (Fv _ H)).
        assert (e <> upos) by (intros ->; exact (Fu _ H)).
        assert (twin e <> vpos) by (intros HH; rewrite HH in T2; exact (Fv _ T2)).
        assert (twin e <> upos) by (intros HH; rewrite HH in T2; exact (Fu _ T2)).
        rewrite !upd_other by auto. split; auto. apply IA. auto.
      * rewrite TU. rewrite upd_same. split; auto.
        rewrite upd_other by auto. rewrite upd_same. apply IA. auto.
      * fold upos. rewrite upd_other by auto. rewrite !upd_same. split; auto. apply IA; auto.
    + constructor.
      * rewrite (if_N _ _ FR). apply S.
      * rewrite (if_M _ _ FR). pose proof (st_M _ _ S). lia.
      * rewrite Hbound. unfold gp_EdgeIndexBound. rewrite (if_cap _ _ FR).
        pose proof (st_cap _ _ S) as Hc.
        destruct (gholes g) eqn:EH.
        -- unfold gp_EdgeInUseIndexBound, gp_EdgeIndexBound in *. rewrite EH in *. cbn [length] in *.
           pose proof (Z.mul_div_le (gCap g) 2 ltac:(lia)). lia.
        -- exact Hc.
      * rewrite (if_cap _ _ FR). apply S.
      * rewrite (if_cap _ _ FR), (if_holesCap _ _ FR). apply S.
      * intros w e. rewrite IA, Hbound.
        assert (HB : 2 <= vpos < match gholes g with [] => gp_EdgeInUseIndexBound g + 2 | _ => gp_EdgeInUseIndexBound g end).
        { destruct Hvp as [[E1 E2]|[hs E1]]; rewrite E1.
          - lia.
          - assert (Hin : In vpos (gholes g)) by (rewrite E1; simpl; auto).
            pose proof (st_holes _ _ S _ Hin). lia. }
        assert (HE : Z.even (match gholes g with [] => gp_EdgeInUseIndexBound g + 2 | _ => gp_EdgeInUseIndexBound g end) = true).
        { rewrite <- Hbound. apply even_bound. }
        intros [H|[[-> _]|[-> _]]].
        -- pose proof (st_used _ _ S _ _ H). destruct (gholes g); lia.
        -- split; [lia|]. unfold upos. apply twin_lt_even; auto; lia.
        -- lia.
      * intros h. rewrite (if_holes _ _ FR). intros Hin.
        assert (Hin' : In h (gholes g)) by (destruct (gholes g); simpl in *; auto).
        destruct (st_holes _ _ S h Hin') as (Hr & Hn & Ht).
        rewrite Hbound. gsimp. rewrite E5.
        assert (Hne : h / 2 <> vpos / 2).
        { destruct Hvp as [[E1 E2]|[hs E1]].
          - rewrite E1 in Hin'. destruct Hin'.
          - pose proof (st_holes_nodup _ _ S) as Nd. rewrite E1 in Nd. cbn [map] in Nd.
            apply NoDup_cons_iff in Nd. intros Heq. apply (proj1 Nd). rewrite <- Heq.
            apply in_map_iff. exists h. rewrite E1 in Hin. cbn [tl] in Hin. auto. }
        assert (h <> vpos) by congruence.
        assert (h <> upos) by (intros ->; apply Hne; unfold upos; apply twin_half; lia).
        assert (twin h <> vpos) by (intros HH; apply H0; unfold upos; rewrite <- HH; now rewrite twin_invol).
        assert (twin h <> upos) by (intros HH; apply H; apply (f_equal twin) in HH; unfold upos in HH; rewrite !twin_invol in HH; auto).
        rewrite !upd_other by auto. split; auto. destruct (gholes g); lia.
      * rewrite (if_holes _ _ FR). pose proof (st_holes_nodup _ _ S) as Nd.
        destruct (gholes g); cbn [tl map] in *; auto. now inversion Nd.
      * intros e. rewrite Hbound. intros He. rewrite (if_holes _ _ FR). gsimp. rewrite E5.
        destruct (Z.eq_dec (e / 2) (vpos / 2)) as [Hq|Hq].
        { left. destruct (div2_eq_twin e vpos ltac:(lia) ltac:(lia) Hq) as [->|Hq'].
          - fold upos. rewrite upd_other by auto. rewrite upd_same. apply IA. auto.
          - change (Z.lxor vpos 1) with upos in Hq'. subst e. rewrite TU.
            rewrite upd_same. apply IA. auto. }
        assert (twin e <> vpos) by (intros HH; apply Hq; rewrite <- HH; symmetry; apply twin_half; lia).
        assert (twin e <> upos).
        { intros HH. apply Hq. apply (f_equal twin) in HH. unfold upos in HH. rewrite !twin_invol in HH. now rewrite HH. }
        rewrite !upd_other by auto.
        assert (He' : 2 <= e < gp_EdgeInUseIndexBound g).
        { destruct Hvp as [[E1 E2]|[hs E1]]; rewrite E1 in He; auto.
          destruct (Z_lt_dec e (gp_EdgeInUseIndexBound g)); [lia|].
          exfalso. apply Hq. rewrite E2.
          pose proof (even_bound g) as Hevn. rewrite Z.even_spec in Hevn. destruct Hevn as [k Hk].
          assert (e = 2 * k \/ e = 2 * k + 1) as [->| ->] by lia; rewrite Hk;
            Z.div_mod_to_equations; lia. }
        destruct (st_cover _ _ S e He') as [Hc|Hc].
        -- left. apply IA. auto.
        -- right. destruct Hvp as [[E1 E2]|[hs E1]]; rewrite E1 in *; cbn [tl map] in *; auto.
           destruct Hc as [Hc|Hc]; auto. congruence.
  - exact FR.
  - intros x. rewrite ET. cbn [snd]. fold upos. gsimp. rewrite E5. unfold upd.
    destruct (x =? vpos); auto.
  - rewrite ET. cbn [snd]. fold upos. intros x H1 H2 H3. gsimp.
    destruct (K5 x H1) as [P1 P2].
    { intros w. unfold adj1, upd. destruct (Z.eqb_spec w u) as [->|]; auto.
      rewrite I1. intros [H|H]; [congruence|exact (H3 _ H)]. }
    destruct (K3 x H2 H3) as [Q1 Q2].
    rewrite P1, P2. unfold g4. gsimp. rewrite Q1, Q2. unfold g2. subst g1. split; reflexivity.
  - intros w H1 H2. gsimp. destruct (V5 w H2) as [P1 P2]. destruct (V3 w H1) as [Q1 Q2].
    rewrite P1, P2. unfold g4. gsimp. rewrite Q1, Q2. unfold g2. subst g1. split; reflexivity.
Qed.
