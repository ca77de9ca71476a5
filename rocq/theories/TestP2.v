(** * TestP2: the facial integrity check decides Euler's formula. *)
From Verif Require Import Base BaseP GraphRec GraphM GraphSpec GSimp LinkP GraphP GraphP2 GraphP3 GraphP5
  DFSM DFSSpec DFSP RandP2 TestM TestSpec OrbitP TestP.
From Coq Require Import Permutation.

Section Push.
Variables (g0 : graph) (adj : Z -> list Z).
Hypothesis R : rep g0 adj.
Hypothesis Room : 2 * gM g0 <= gstackCap g0.
Notation L := (all_arcs g0 adj).

Lemma L_use e : In e L <-> 2 <= e < gp_EdgeInUseIndexBound g0 /\ enbr g0 e <> NIL.
Proof. rewrite (arc_L g0 adj R). symmetry. apply (rep_in_use g0 adj e R). Qed.
Lemma L_twin e : In e L -> In (twin e) L.
Proof.
  intros H. apply (arc_L g0 adj R) in H as (v & H). apply (arc_L g0 adj R).
  exists (enbr g0 e). exact (proj2 (rep_twins _ _ R _ _ H)).
Qed.
Lemma sub_L_len s : NoDup s -> (forall x, In x s -> In x L) -> Z.of_nat (length s) <= 2 * gM g0.
Proof.
  intros N H. rewrite <- (all_arcs_length g0 adj R).
  apply Nat2Z.inj_le, NoDup_incl_length; auto.
Qed.

Lemma push_ok : forall n e g, edge_marks_only g0 g -> 2 <= e -> Z.even e = true ->
  e <= gp_EdgeInUseIndexBound g0 -> gp_EdgeInUseIndexBound g0 - e < 2 * Z.of_nat n ->
  NoDup (gstack g) -> (forall x, In x (gstack g) <-> In x L /\ x < e) ->
  (forall x, In x (gstack g) -> evis g x = false) ->
  wp (face_push_loop n g e) (fun g' => edge_marks_only g0 g' /\ NoDup (gstack g') /\
    (forall x, In x (gstack g') <-> In x L) /\ (forall x, In x L -> evis g' x = false)).
Proof.
  induction n as [|n IH]; intros e g Fr He Ev Hle Hn N St V.
  - lia. 
  - cbn [face_push_loop].
    assert (Bd : gp_EdgeInUseIndexBound g = gp_EdgeInUseIndexBound g0)
      by (destruct Fr; unfold gp_EdgeInUseIndexBound; congruence).
    rewrite Bd. destruct (Z.ltb_spec e (gp_EdgeInUseIndexBound g0)) as [Lt|Ge].
    + assert (IE : inE g e = true).
      { apply inE_true. pose proof (st_cap _ _ (rep_storage _ _ R)). destruct Fr. unfold gp_EdgeIndexBound in *. lia. }
      rewrite get_nbr by auto. cbn [bind]. rewrite (em_enbr _ _ Fr).
      assert (Ev2 : Z.even (e + 2) = true) by (rewrite Z.even_add, Ev; reflexivity).
      assert (Hle2 : e + 2 <= gp_EdgeInUseIndexBound g0).
      { pose proof (even_bound g0) as EB. apply Z.even_spec in EB as (b & EB).
        pose proof Ev as Ev'. apply Z.even_spec in Ev' as (a & Ea). lia. }
      assert (Tw : twin e = e + 1) by (unfold twin; rewrite lxor_1 by lia; now rewrite Ev).
      destruct (Z.eqb_spec (enbr g0 e) NIL) as [E0|E0]; cbn [negb].
      * cbn [bind]. apply IH; auto; try lia.
        intros x. rewrite St. split; intros (H & H1); (split; [auto|]); [lia|].
        destruct (Z.eq_dec x e) as [->|]; [apply L_use in H; tauto|].
        destruct (Z.eq_dec x (e + 1)) as [->|]; [|lia].
        apply L_twin in H. rewrite <- Tw, twin_invol in H. apply L_use in H. tauto.
      * assert (HeL : In e L) by (apply L_use; auto). pose proof (L_twin e HeL) as HtL.
        assert (N1 : NoDup (e :: gstack g)). { constructor; auto. rewrite St. lia. }
        assert (N2 : NoDup (twin e :: e :: gstack g)).
        { constructor; auto. intros [H|H]; [now apply (twin_ne e)|]. apply St in H. lia. }
        assert (Sub : forall x, In x (twin e :: e :: gstack g) -> In x L).
        { intros x [<-|[<-|H]]; auto. now apply St. }
        pose proof (sub_L_len _ N2 Sub) as Len. cbn [length] in Len.
        unfold stk_push at 1. rewrite guard_true by (destruct Fr; apply Z.ltb_lt; lia). cbn [bind].
        rewrite clear_evis_ok by exact IE. cbn [bind].
        unfold stk_push. rewrite guard_true.
        2:{ unfold mark_e; gsimp. destruct Fr. apply Z.ltb_lt. cbn [length]. lia. }
        cbn [bind]. rewrite twin_eq. rewrite clear_evis_ok.
        2:{ change (inE g (twin e) = true). now apply (L_inE g0 adj R). }
        apply IH; auto; try lia.
        -- eapply em_trans; [eauto|]. eapply em_trans; [|apply em_mark]. eapply em_trans; [|apply em_stack].
           eapply em_trans; [|apply em_mark]. apply em_stack.
        -- intros x. unfold mark_e; gsimp. cbn [In]. rewrite St. split.
           ++ intros [<-|[<-|(? & ?)]]; split; auto; lia.
           ++ intros (H & H1). destruct (Z.eq_dec x e); auto. destruct (Z.eq_dec x (twin e)); auto. right; right. split; auto; lia.
        -- intros x. rewrite evis_mark. destruct (Z.eqb_spec x (twin e)); auto.
           unfold mark_e at 1; gsimp. intros [H|H]; [congruence|].
           change (evis (mark_e (set_gstack g (e :: gstack g)) e false) x = false).
           rewrite evis_mark. destruct (Z.eqb_spec x e); auto. destruct H as [H|H]; [congruence|].
           now apply V.
    + cbn [wp]. split; [auto|]. split; [auto|]. split.
      * intros x. rewrite St. split; [tauto|]. intros H; split; auto. apply L_use in H. lia.
      * intros x H. apply V, St. split; auto. apply L_use in H. lia.
Qed.
End Push.

(** ** Components *)
Section Comp.
Variables (g0 : graph) (adj : Z -> list Z).
Hypothesis R : rep g0 adj.
Hypothesis Roots : one_root_each g0 adj.

Definition rootb (v : Z) : bool := par g0 v =? NIL.
Definition nonempty (v : Z) : bool := match adj v with [] => false | _ => true end.

Lemma comp_loop_ok g : edge_marks_only g0 g -> forall n lo F C, 1 <= lo -> lo + Z.of_nat n <= gN g0 + 1 ->
  for_up n lo (component_step g) (F, C) =
  Ret (F - Z.of_nat (length (filter (fun v => rootb v && nonempty v) (zrange lo n))),
       C + Z.of_nat (length (filter rootb (zrange lo n)))).
Proof.
  intros Fr. induction n as [|n IH]; intros lo F C Hlo Hb.
  - cbn. f_equal. f_equal; lia.
  - cbn [for_up]. pose proof (st_N _ _ (rep_storage _ _ R)).
    replace (zrange lo (S n)) with (lo :: zrange (lo + 1) n).
    2:{ unfold zrange. cbn [seq map]. f_equal; [lia|]. rewrite <- seq_shift, map_map. apply map_ext; intros; lia. }
    unfold component_step at 1. unfold gp_GetVertexParent, rd_vi.
    rewrite guard_true by (unfold inVI, gp_PrimaryVertexIndexBound; rewrite (em_N _ _ Fr); apply andb_true_intro; split; [apply Z.leb_le|apply Z.ltb_lt]; lia).
    cbn [bind]. rewrite (em_VI _ _ Fr). fold (par g0 lo). fold (rootb lo).
    cbn [filter].
    assert (D : gp_GetVertexDegree g lo = Ret (Z.of_nat (length (adj lo)))).
    { apply degrees_ok; [apply (em_rep _ _ _ Fr R)|]. unfold is_vertex. rewrite (em_N _ _ Fr). lia. }
    destruct (rootb lo) eqn:E.
    + rewrite D. cbn [bind]. rewrite IH by lia. cbn [andb].
      assert (Nb : nonempty lo = (Z.of_nat (length (adj lo)) >? 0)).
      { unfold nonempty. destruct (adj lo); cbn [length]; symmetry; [reflexivity|]. apply Z.gtb_lt. lia. }
      rewrite Nb. destruct (Z.of_nat (length (adj lo)) >? 0); cbn [length]; f_equal; f_equal; lia.
    + cbn [bind]. rewrite IH by lia. cbn [andb]. reflexivity.
Qed.

Lemma zr_prim v : In v (zrange 1 (Z.to_nat (gN g0))) <-> primary g0 v.
Proof. rewrite in_zrange. pose proof (st_N _ _ (rep_storage _ _ R)). unfold primary. lia. Qed.

Lemma comps_ok : num_components g0 adj (Z.of_nat (length (filter rootb (zrange 1 (Z.to_nat (gN g0)))))).
Proof.
  exists (filter rootb (zrange 1 (Z.to_nat (gN g0)))). split; [apply NoDup_filter, NoDup_zrange|].
  split. { intros r H. apply filter_In in H as [H _]. now apply zr_prim. }
  split.
  { intros r r' H H' Cn. apply filter_In in H as [H1 H2]. apply filter_In in H' as [H1' H2'].
    apply zr_prim in H1, H1'. apply Z.eqb_eq in H2, H2'.
    destruct (Roots r' H1') as (q & _ & _ & _ & U).
    rewrite (U r H1 H2 Cn), (U r' H1' H2'); [auto|constructor]. }
  split; [|auto].
  intros v Hv. destruct (Roots v Hv) as (r & Pr & Rr & Cn & _). exists r. split; auto.
  apply filter_In. split; [now apply zr_prim|]. now apply Z.eqb_eq.
Qed.

Lemma isolated_root v : primary g0 v -> adj v = [] -> rootb v = true.
Proof.
  intros Hv E. destruct (Roots v Hv) as (r & Pr & Rr & Cn & _).
  enough (r = v) by (subst; now apply Z.eqb_eq).
  destruct Cn as [|w e Cn He]; auto.
  exfalso. apply (rep_twins _ _ R) in He as [_ He]. rewrite E in He. destruct He.
Qed.

Lemma count_split (p q : Z -> bool) l : (forall x, In x l -> q x = false -> p x = true) ->
  length (filter p l) = (length (filter (fun x => p x && q x) l) + length (filter (fun x => negb (q x)) l))%nat.
Proof.
  induction l as [|a l IH]; intros H; [reflexivity|]. cbn [filter].
  pose proof (H a (or_introl eq_refl)) as Ha.
  destruct (q a) eqn:Eq, (p a) eqn:Ep; cbn [andb negb length]; rewrite ?IH by (intros; apply H; auto; now right); try lia.
Qed.

Lemma roots_isolated :
  Z.of_nat (length (filter rootb (zrange 1 (Z.to_nat (gN g0))))) =
  Z.of_nat (length (filter (fun v => rootb v && nonempty v) (zrange 1 (Z.to_nat (gN g0))))) + num_isolated g0 adj.
Proof.
  rewrite (count_split rootb nonempty).
  - rewrite Nat2Z.inj_add. f_equal. unfold num_isolated. f_equal. f_equal.
    replace (map Z.of_nat (seq 1 (Z.to_nat (gN g0)))) with (zrange 1 (Z.to_nat (gN g0))).
    + apply filter_ext. intros v. unfold nonempty. destruct (adj v); reflexivity.
    + unfold zrange. rewrite <- seq_shift, map_map. apply map_ext. intros; lia.
  - intros v Hv E. apply isolated_root; [now apply zr_prim|]. unfold nonempty in E. destruct (adj v); congruence.
Qed.
End Comp.

Lemma same_face_sym g adj a b : rep g adj -> is_arc adj a -> same_face g adj a b -> same_face g adj b a.
Proof.
  intros R Ha (k & H). apply (arc_L g adj R) in Ha.
  apply (orbit_sym _ _ (step_closed g adj R) (step_inj g adj R)) in H; auto.
Qed.
Lemma same_face_trans g adj a b c : same_face g adj a b -> same_face g adj b c -> same_face g adj a c.
Proof. intros (k & <-) (j & <-). exists (j + k)%nat. apply iter_add. Qed.
Lemma num_faces_unique g adj F F' : rep g adj -> num_faces g adj F -> num_faces g adj F' -> F = F'.
Proof.
  intros R. apply num_classes_unique.
  - intros a b Ha _. now apply same_face_sym.
  - intros a b c _. apply same_face_trans.
Qed.
Lemma connected_trans g adj a b c : connected g adj a b -> connected g adj b c -> connected g adj a c.
Proof. intros H. induction 1; auto. econstructor; eauto. Qed.
Lemma connected_sym g adj a b : rep g adj -> connected g adj a b -> connected g adj b a.
Proof.
  intros R. induction 1 as [|w e H IH He]; [constructor|].
  destruct (rep_twins _ _ R _ _ He) as [T1 T2].
  eapply connected_trans; [|exact IH]. rewrite <- T1. econstructor; [constructor|exact T2].
Qed.
Lemma num_components_unique g adj C C' : rep g adj -> num_components g adj C -> num_components g adj C' -> C = C'.
Proof.
  intros R. apply num_classes_unique.
  - intros a b _ _. now apply connected_sym.
  - intros a b c _. apply connected_trans.
Qed.

Lemma facial_ok g adj : rep g adj -> 2 * gM g <= gstackCap g -> one_root_each g adj ->
  wp (_CheckEmbeddingFacialIntegrity g) (fun '(g', r) =>
    edge_marks_only g g' /\ gstack g' = [] /\ (r = C_OK \/ r = C_NOTOK) /\ (r = C_OK <-> euler g adj)).
Proof.
  intros R Room Roots. unfold _CheckEmbeddingFacialIntegrity.
  pose proof (rep_storage _ _ R) as St.
  apply wp_bind. eapply wp_mono.
  { apply (push_ok g adj R Room).
    - apply em_stack.
    - lia.
    - reflexivity.
    - unfold gp_EdgeInUseIndexBound. pose proof (st_M _ _ St). lia.
    - unfold efuel, stk_clear. change (gp_EdgeIndexBound (set_gstack g [])) with (gp_EdgeIndexBound g).
      pose proof (st_cap _ _ St). pose proof (st_M _ _ St). unfold gp_EdgeInUseIndexBound in *. lia.
    - constructor.
    - intros x. cbn. split; [tauto|]. intros (H & H1). apply (L_use g adj R) in H. lia.
    - intros x []. }
  intros g1 (Fr & N & Mem & V). cbn beta.
  assert (Len : stk_size g1 = 2 * gM g1).
  { unfold stk_size. rewrite (em_M _ _ Fr), <- (all_arcs_length g adj R). f_equal.
    apply Permutation_length, NoDup_Permutation; auto. apply NoDup_all_arcs, R. }
  rewrite Len, Z.eqb_refl. cbn [negb].
  apply wp_bind. eapply wp_mono.
  { apply (faces_loop_ok g adj R (S (length (gstack g1))) g1 []).
    - lia.
    - auto.
    - intros e; apply Mem.
    - constructor.
    - intros r [].
    - intros r r' [].
    - intros e He. rewrite V by auto. split; [discriminate|]. intros (r & [] & _).
    - intros e He. right. now apply Mem. }
  intros (g2, nf) (Fr2 & St2 & F & -> & HF).
  rewrite (em_N _ _ Fr2). pose proof (st_N _ _ St).
  rewrite (comp_loop_ok g adj R g2 Fr2) by lia. cbn [bind wp].
  split; [auto|]. split; [auto|].
  pose proof (comps_ok g adj R Roots) as HC.
  pose proof (roots_isolated g adj R Roots) as HI.
  set (nr := Z.of_nat (length (filter (rootb g) (zrange 1 (Z.to_nat (gN g)))))) in *.
  set (nn := Z.of_nat (length (filter (fun v => rootb g v && nonempty adj v) (zrange 1 (Z.to_nat (gN g)))))) in *.
  rewrite (em_M _ _ Fr2).
  assert (EU : euler g adj <-> gN g - gM g + (F + num_isolated g adj) = 2 * nr).
  { split.
    - intros (F' & C' & HF' & HC' & E).
      now rewrite (num_faces_unique _ _ _ _ R HF HF'), (num_components_unique _ _ _ _ R HC HC').
    - intros E. exists F, nr. auto. }
  rewrite EU.
  destruct (Z.eqb_spec (F - nn + 1) (gM g - gN g + 1 + (0 + nr))) as [E|E].
  - split; [now left|]. split; [intros _; lia|auto].
  - split; [now right|]. split; [intros H1; discriminate H1|]. intros H1; lia.
Qed.
