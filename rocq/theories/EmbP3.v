(** * EmbP3: joining the bicomps. *)
From Coq Require Import ZifyBool Permutation.
From Verif Require Import Base BaseP GraphRec GraphM GraphSpec GSimp LinkP GraphP GraphP2 ListM DFSM TestM EmbM EmbSpec EmbP EmbP2.

Lemma merged_in adj W link R v e : W <> R ->
  In e (merged_lists adj W link R v) <-> (v = W /\ (In e (adj W) \/ In e (adj R))) \/ (v <> W /\ v <> R /\ In e (adj v)).
Proof.
  intros Hne. unfold merged_lists, upd. destruct (Z.eqb_spec v W) as [->|Hv].
  - destruct (link =? 0); rewrite in_app_iff; tauto.
  - destruct (Z.eqb_spec v R) as [->|Hv']; cbn [In]; tauto.
Qed.

Lemma merged_enbr g h adj W link R : merged g h adj W link R ->
  forall e, enbr h e = if inb (twin e) (adj R) then W else enbr g e.
Proof.
  intros M e. destruct (inb_spec (twin e) (adj R)) as [H|H].
  - rewrite <- (mg_to _ _ _ _ _ _ M _ H). now rewrite twin_invol.
  - apply M. exact H.
Qed.

Lemma merged_twins g h adj W link R : W <> R -> chains g adj -> merged g h adj W link R -> twins_ok g adj ->
  twins_ok h (merged_lists adj W link R).
Proof.
  intros Hne C M T v e H. rewrite (merged_in _ _ _ _ _ _ Hne) in H. rewrite (merged_in _ _ _ _ _ _ Hne).
  assert (He : exists u, In e (adj u) /\ v = if u =? R then W else u).
  { destruct H as [[-> [H|H]]|(Hv1 & Hv2 & H)].
    - exists W. rewrite eqb_false_neq by auto. auto.
    - exists R. rewrite Z.eqb_refl. auto.
    - exists v. rewrite eqb_false_neq by auto. auto. }
  destruct He as (u & He & Hv). destruct (T _ _ He) as [T1 T2].
  assert (Ke : inb e (adj R) = (u =? R)).
  { destruct (inb_spec e (adj R)) as [Q|Q].
    - rewrite (ch_disj _ _ C _ _ _ He Q). now rewrite Z.eqb_refl.
    - destruct (Z.eqb_spec u R) as [->|]; [contradiction|reflexivity]. }
  assert (Kt : inb (twin e) (adj R) = (enbr g e =? R)).
  { destruct (inb_spec (twin e) (adj R)) as [Q|Q].
    - rewrite (ch_disj _ _ C _ _ _ T2 Q). now rewrite Z.eqb_refl.
    - destruct (Z.eqb_spec (enbr g e) R) as [E|]; [rewrite E in T2; contradiction|reflexivity]. }
  rewrite !(merged_enbr _ _ _ _ _ _ M), twin_invol, Ke, Kt, T1. split; [auto|].
  destruct (Z.eqb_spec (enbr g e) R) as [E|E].
  - left. split; [auto|]. right. now rewrite <- E.
  - destruct (Z.eq_dec (enbr g e) W) as [E'|E'].
    + left. split; [auto|]. left. now rewrite <- E'.
    + right. auto.
Qed.

Lemma merged_storage g h adj W link R : W <> R -> rep g adj -> merged g h adj W link R ->
  storage_ok h (merged_lists adj W link R).
Proof.
  intros Hne Rp M. pose proof (mg_core _ _ _ _ _ _ M) as F. destruct Rp as [C T S].
  constructor; rewrite ?(fc_N _ _ F), ?(fc_M _ _ F), ?(fc_cap _ _ F), ?(fc_holesCap _ _ F), ?(fc_holes _ _ F), ?(fc_bound _ _ F),
    ?(fc_ebound _ _ F); try apply S.
  - intros v e H. rewrite (merged_in _ _ _ _ _ _ Hne) in H.
    destruct H as [[-> [H|H]]|(_ & _ & H)]; exact (st_used _ _ S _ e H).
  - intros x Hx. destruct (st_holes _ _ S x Hx) as (H1 & H2 & H3). split; [exact H1|].
    assert (Q : forall y v, enbr g y = NIL -> ~ In (twin y) (adj v)).
    { intros y v E Hy. destruct (T _ _ Hy) as [E1 _]. rewrite twin_invol in E1. rewrite E in E1.
      pose proof (ch_isvertex _ _ _ _ C Hy) as V. unfold is_vertex, NIL in *. lia. }
    rewrite !(mg_others _ _ _ _ _ _ M); auto.
  - intros e He. destruct (st_cover _ _ S e He) as [H|H]; [|right; exact H]. left.
    rewrite (merged_in _ _ _ _ _ _ Hne), (merged_enbr _ _ _ _ _ _ M), twin_invol.
    destruct (inb_spec e (adj R)) as [Q|Q]; [left; auto|].
    destruct (Z.eq_dec (enbr g (twin e)) W) as [E|E]; [left; split; [auto|left; now rewrite <- E]|].
    right. split; [auto|]. split; [|exact H]. intros E'. rewrite E' in H. contradiction.
Qed.

Lemma merged_rep g h adj W link R : W <> R -> rep g adj -> merged g h adj W link R -> rep h (merged_lists adj W link R).
Proof.
  intros Hne Rp M. constructor; [apply M|eapply merged_twins; eauto; apply Rp|eapply merged_storage; eauto].
Qed.

(** ** _JoinBicomps *)
(** State after the virtual vertices N+1 .. N+n have been treated. *)
Definition part_lists (g : graph) (adj : Z -> list Z) (n : nat) (v : Z) : list Z :=
  if v <=? gN g then flat_map adj (copies_of g v n) ++ adj v
  else if v <=? gN g + Z.of_nat n then [] else adj v.
Definition part_prim (g : graph) (n : nat) (v : Z) : Z :=
  if (gN g <? v) && (v <=? gN g + Z.of_nat n) then primary_of g v else v.

Record part_joined (g h : graph) (adj : Z -> list Z) (n : nat) : Prop := {
  pj_core : frame_core g h;
  pj_chains : chains h (part_lists g adj n);
  pj_enbr : forall e v, In e (adj v) -> enbr h (twin e) = part_prim g n v;
  pj_enbr2 : forall e, (forall v, ~ In (twin e) (adj v)) -> enbr h e = enbr g e;
  pj_vindex : forall v, v <= gN g \/ adj v = [] -> vindex h v = vindex g v;
  pj_vflags : forall v, v <= gN g \/ adj v = [] -> vflags h v = vflags g v;
  pj_eflags : eflags h = eflags g; pj_X : gX h = gX g }.

Lemma copies_in g v n R : In R (copies_of g v n) <-> (gN g < R <= gN g + Z.of_nat n /\ primary_of g R = v).
Proof.
  induction n as [|n IH].
  - cbn [copies_of In]. split; [tauto|]. intros [H _]. cbn in H. lia.
  - cbn [copies_of]. rewrite in_app_iff, IH. split.
    + intros [H|[H1 H2]]; [|split; [lia|auto]]. destruct (Z.eqb_spec (primary_of g (gN g + Z.of_nat (S n))) v) as [E|E]; [|destruct H].
      destruct H as [<-|[]]. split; [lia|auto].
    + intros [H1 H2]. destruct (Z.eq_dec R (gN g + Z.of_nat (S n))) as [->|Hne]; [left|right; split; [lia|auto]].
      rewrite H2, Z.eqb_refl. now left.
Qed.

Lemma part_in g adj n v e : chains g adj -> copies_ok g adj -> (Z.of_nat n <= gN g) ->
  In e (part_lists g adj n v) <-> exists u, In e (adj u) /\ part_prim g n u = v.
Proof.
  intros C K Hn. unfold part_lists, part_prim.
  destruct (Z.leb_spec v (gN g)) as [Hv|Hv].
  - rewrite in_app_iff, in_flat_map. split.
    + intros [(R & H1 & H2)|H].
      * apply copies_in in H1. destruct H1 as [H1 H3]. exists R. split; [auto|].
        replace ((gN g <? R) && (R <=? gN g + Z.of_nat n)) with true by lia. exact H3.
      * exists v. split; [auto|]. replace (gN g <? v) with false by lia. reflexivity.
    + intros (u & H1 & H2). destruct ((gN g <? u) && (u <=? gN g + Z.of_nat n)) eqn:E.
      * left. exists u. split; [|auto]. apply copies_in. split; [lia|auto].
      * subst u. now right.
  - destruct (Z.leb_spec v (gN g + Z.of_nat n)) as [Hv'|Hv'].
    + split; [intros []|]. intros (u & H1 & H2). destruct ((gN g <? u) && (u <=? gN g + Z.of_nat n)) eqn:E.
      * assert (adj u <> []) by (destruct (adj u); [destruct H1|discriminate]).
        pose proof (K u ltac:(lia) H). lia.
      * subst u. lia.
    + split.
      * intros H. exists v. split; [auto|]. replace ((gN g <? v) && (v <=? gN g + Z.of_nat n)) with false by lia. reflexivity.
      * intros (u & H1 & H2). destruct ((gN g <? u) && (u <=? gN g + Z.of_nat n)) eqn:E.
        -- assert (adj u <> []) by (destruct (adj u); [destruct H1|discriminate]).
           pose proof (K u ltac:(lia) H). lia.
        -- now subst u.
Qed.

Lemma part_lists_S g adj n v : Z.of_nat (S n) <= gN g -> copies_ok g adj -> is_vertex g v ->
  adj (gN g + Z.of_nat (S n)) <> [] ->
  part_lists g adj (S n) v =
  merged_lists (part_lists g adj n) (primary_of g (gN g + Z.of_nat (S n))) 0 (gN g + Z.of_nat (S n)) v.
Proof.
  intros Hn K Hv Hne. set (R := gN g + Z.of_nat (S n)) in *.
  pose proof (K R ltac:(unfold R; lia) Hne) as HP. set (P := primary_of g R) in *.
  unfold merged_lists, upd. change (0 =? 0) with true. cbv iota. unfold part_lists. unfold R in *. clear R.
  replace (gN g + Z.of_nat (S n) <=? gN g) with false by lia.
  replace (gN g + Z.of_nat (S n) <=? gN g + Z.of_nat n) with false by lia.
  replace (P <=? gN g) with true by lia.
  cbn [copies_of]. fold P.
  destruct (Z.eqb_spec v P) as [->|HvP].
  - replace (P <=? gN g) with true by lia. rewrite Z.eqb_refl. cbn [app flat_map]. now rewrite app_assoc.
  - destruct (Z.eqb_spec v (gN g + Z.of_nat (S n))) as [->|HvR].
    + replace (gN g + Z.of_nat (S n) <=? gN g) with false by lia.
      replace (gN g + Z.of_nat (S n) <=? gN g + Z.of_nat (S n)) with true by lia. reflexivity.
    + destruct (v <=? gN g) eqn:Ev.
      * rewrite (eqb_false_neq P v) by auto. reflexivity.
      * replace (v <=? gN g + Z.of_nat (S n)) with (v <=? gN g + Z.of_nat n) by lia. reflexivity.
Qed.

Lemma part_lists_skip g adj n v : adj (gN g + Z.of_nat (S n)) = [] -> part_lists g adj (S n) v = part_lists g adj n v.
Proof.
  intros E. unfold part_lists. cbn [copies_of].
  destruct (v <=? gN g) eqn:Ev.
  - rewrite flat_map_app. destruct (primary_of g (gN g + Z.of_nat (S n)) =? v); [|reflexivity].
    cbn [flat_map]. rewrite E. reflexivity.
  - destruct (Z.eq_dec v (gN g + Z.of_nat (S n))) as [->|Hne].
    + replace (gN g + Z.of_nat (S n) <=? gN g + Z.of_nat (S n)) with true by lia.
      replace (gN g + Z.of_nat (S n) <=? gN g + Z.of_nat n) with false by lia. auto.
    + replace (v <=? gN g + Z.of_nat (S n)) with (v <=? gN g + Z.of_nat n) by lia. reflexivity.
Qed.

Lemma primary_of_fc g h v : frame_core g h -> primary_of h v = primary_of g v.
Proof. intros F. unfold primary_of. now rewrite (fc_N _ _ F), (fc_VI _ _ F). Qed.

Lemma join_step_ok g h adj n :
  chains g adj -> Z.even (gCap g) = true -> copies_ok g adj -> Z.of_nat (S n) <= gN g ->
  part_joined g h adj n ->
  wp (join_step (gN g + Z.of_nat (S n)) h) (fun k => part_joined g k adj (S n)).
Proof.
  intros C Hev K Hn J. pose proof (pj_core _ _ _ _ J) as F. set (R := gN g + Z.of_nat (S n)) in *.
  assert (HR : is_vertex h R) by (apply (fc_vertex g h); auto; unfold is_vertex, R; lia).
  assert (ER : part_lists g adj n R = adj R).
  { unfold part_lists, R. replace (gN g + Z.of_nat (S n) <=? gN g) with false by lia.
    replace (gN g + Z.of_nat (S n) <=? gN g + Z.of_nat n) with false by lia. reflexivity. }
  unfold join_step, gp_VirtualVertexInUse. run.
  rewrite (ch_first _ _ (pj_chains _ _ _ _ J) R HR), ER.
  destruct (adj R) as [|e0 l0] eqn:EA.
  - cbn [hd]. change (NIL =? NIL) with true. cbn [negb]. cbv iota. apply wp_ret.
    assert (PP : forall v, adj v <> [] -> part_prim g (S n) v = part_prim g n v).
    { intros v Hv. unfold part_prim. destruct (Z.eq_dec v R) as [->|Hne]; [congruence|]. unfold R in Hne.
      replace (v <=? gN g + Z.of_nat (S n)) with (v <=? gN g + Z.of_nat n) by lia. reflexivity. }
    constructor; try apply J.
    + eapply chains_ext; [apply J|]. intros v. symmetry. rewrite <- (part_lists_skip g adj n v EA). reflexivity.
    + intros e v He. rewrite PP by (destruct (adj v); [destruct He|discriminate]). apply J. exact He.
  - assert (He0 : In e0 (adj R)) by (rewrite EA; now left).
    pose proof (ch_range _ _ C _ _ He0) as Re0. cbn [hd].
    rewrite (eqb_false_neq e0 NIL) by (unfold NIL; lia). cbn [negb]. cbv iota.
    assert (Hne : adj R <> []) by (rewrite EA; discriminate).
    pose proof (K R ltac:(unfold R; lia) Hne) as HP. set (P := primary_of g R) in *.
    assert (EP : gp_GetPrimaryVertexFromRoot h R = Ret P).
    { unfold gp_GetPrimaryVertexFromRoot, gp_GetVertexParent, rd_vi, gp_GetDFSChildFromRoot.
      rewrite guard_true.
      - rewrite (fc_VI _ _ F), (fc_N _ _ F). unfold P, primary_of. replace (R <=? gN g) with false by (unfold R; lia). reflexivity.
      - unfold inVI, gp_PrimaryVertexIndexBound. rewrite (fc_N _ _ F). unfold R. lia. }
    rewrite EP, bind_ret.
    eapply wp_mono.
    { apply (merge_ok h (part_lists g adj n) P 0 R).
      - apply J.
      - rewrite (fc_cap _ _ F). exact Hev.
      - apply (fc_vertex g h); auto. unfold is_vertex. lia.
      - exact HR.
      - unfold R. lia.
      - now left.
      - rewrite ER. congruence. }
    intros k M. pose proof (mg_core _ _ _ _ _ _ M) as F2.
    assert (HPR : P <> R) by (unfold R; lia).
    constructor.
    + eapply frame_core_trans; eauto.
    + eapply chains_ext; [apply M|]. intros v.
      destruct (Z_le_dec 1 v) as [H1|H1]; [destruct (Z_le_dec v (2 * gN g)) as [H2|H2]|].
      * rewrite part_lists_S; auto. unfold is_vertex; lia.
      * unfold merged_lists, upd, part_lists. replace (v =? P) with false by lia. replace (v =? R) with false by (unfold R; lia).
        replace (v <=? gN g) with false by lia. replace (v <=? gN g + Z.of_nat (S n)) with false by lia.
        replace (v <=? gN g + Z.of_nat n) with false by lia. reflexivity.
      * unfold merged_lists, upd, part_lists. replace (v =? P) with false by lia. replace (v =? R) with false by (unfold R; lia).
        replace (v <=? gN g) with true by lia. cbn [copies_of]. change (gN g + Z.of_nat (S n)) with R. fold P. replace (P =? v) with false by lia. reflexivity.
    + intros e v He. rewrite (merged_enbr _ _ _ _ _ _ M), twin_invol, ER.
      destruct (inb_spec e (e0 :: l0)) as [Q|Q]; rewrite <- EA in Q.
      * rewrite (ch_disj _ _ C _ _ _ He Q). unfold part_prim. replace ((gN g <? R) && (R <=? gN g + Z.of_nat (S n))) with true by (unfold R; lia). reflexivity.
      * rewrite (pj_enbr _ _ _ _ J e v He). unfold part_prim.
        destruct (Z.eq_dec v R) as [->|Hv]; [contradiction|]. unfold R in Hv.
        replace (v <=? gN g + Z.of_nat (S n)) with (v <=? gN g + Z.of_nat n) by lia. reflexivity.
    + intros e He. rewrite (merged_enbr _ _ _ _ _ _ M), ER.
      destruct (inb_spec (twin e) (e0 :: l0)) as [Q|Q].
      * rewrite <- EA in Q. exfalso. exact (He R Q).
      * apply J. exact He.
    + intros v Hv. rewrite (mg_vindex _ _ _ _ _ _ M); [now apply J|]. intros ->. destruct Hv as [Hv|Hv]; [unfold R in Hv; lia|congruence].
    + intros v Hv. rewrite (mg_vflags _ _ _ _ _ _ M); [now apply J|]. intros ->. destruct Hv as [Hv|Hv]; [unfold R in Hv; lia|congruence].
    + rewrite (mg_eflags _ _ _ _ _ _ M). apply J.
    + rewrite (mg_X _ _ _ _ _ _ M). apply J.
Qed.

Lemma part_joined_0 g adj : chains g adj -> twins_ok g adj -> part_joined g g adj 0.
Proof.
  intros C T. constructor; auto.
  - apply frame_core_refl.
  - eapply chains_ext; [exact C|]. intros v. unfold part_lists. cbn [copies_of flat_map app].
    destruct (Z.leb_spec v (gN g)); [reflexivity|]. replace (v <=? gN g + Z.of_nat 0) with false by lia. reflexivity.
  - intros e v He. rewrite (proj1 (T _ _ He)). unfold part_prim. replace ((gN g <? v) && (v <=? gN g + Z.of_nat 0)) with false by lia. reflexivity.
Qed.

Lemma join_loop_ok g adj : chains g adj -> Z.even (gCap g) = true -> copies_ok g adj ->
  forall m n h, Z.of_nat (n + m) <= gN g -> part_joined g h adj n ->
  wp (for_up m (gN g + Z.of_nat n + 1) join_step h) (fun k => part_joined g k adj (n + m)).
Proof.
  intros C Hev K. induction m as [|m IH]; intros n h Hn J.
  - cbn [for_up wp]. now rewrite Nat.add_0_r.
  - cbn [for_up]. apply wp_bind. replace (gN g + Z.of_nat n + 1) with (gN g + Z.of_nat (S n)) by lia.
    eapply wp_mono; [apply (join_step_ok g h adj n C Hev K); [lia|exact J]|].
    intros k J2. cbn beta. replace (n + S m)%nat with (S n + m)%nat by lia. apply IH; [lia|exact J2].
Qed.

Lemma join_ok g adj : chains g adj -> twins_ok g adj -> Z.even (gCap g) = true -> copies_ok g adj -> 0 <= gN g ->
  wp (_JoinBicomps g) (fun '(h, r) => r = C_OK /\ part_joined g h adj (Z.to_nat (gN g))).
Proof.
  intros C T Hev K HN. unfold _JoinBicomps. apply wp_bind.
  eapply wp_mono.
  { replace (gN g + 1) with (gN g + Z.of_nat 0 + 1) by lia.
    apply (join_loop_ok g adj C Hev K (Z.to_nat (gN g)) 0 g); [lia|now apply part_joined_0]. }
  intros h J. cbn [wp]. split; [reflexivity|]. exact J.
Qed.

Lemma part_rep g h adj n : rep g adj -> copies_ok g adj -> Z.of_nat n <= gN g -> part_joined g h adj n -> rep h (part_lists g adj n).
Proof.
  intros R K Hn J. pose proof (pj_core _ _ _ _ J) as F. destruct R as [C T S].
  assert (Hnb : forall e v, In e (adj v) -> enbr h e = part_prim g n (enbr g e)).
  { intros e v He. destruct (T _ _ He) as [T1 T2]. rewrite <- (pj_enbr _ _ _ _ J _ _ T2). now rewrite twin_invol. }
  constructor.
  - apply J.
  - intros v e H. apply (part_in g adj n v e C K Hn) in H. destruct H as (u & He & <-).
    split; [apply J; exact He|]. apply (part_in g adj n _ _ C K Hn). exists (enbr g e). destruct (T _ _ He) as [T1 T2].
    split; [exact T2|]. symmetry. eapply Hnb; eauto.
  - constructor; rewrite ?(fc_N _ _ F), ?(fc_M _ _ F), ?(fc_cap _ _ F), ?(fc_holesCap _ _ F), ?(fc_holes _ _ F), ?(fc_bound _ _ F),
    ?(fc_ebound _ _ F); try apply S.
    + intros v e H. apply (part_in g adj n v e C K Hn) in H. destruct H as (u & He & _). apply (st_used _ _ S u e He).
    + intros x Hx. destruct (st_holes _ _ S x Hx) as (H1 & H2 & H3). split; [exact H1|].
      assert (Q : forall y v, enbr g y = NIL -> ~ In (twin y) (adj v)).
      { intros y v E Hy. destruct (T _ _ Hy) as [E1 _]. rewrite twin_invol in E1. rewrite E in E1.
        pose proof (ch_isvertex _ _ _ _ C Hy) as V. unfold is_vertex, NIL in *. lia. }
      rewrite !(pj_enbr2 _ _ _ _ J); auto.
    + intros e He. destruct (st_cover _ _ S e He) as [H|H]; [|right; exact H]. left.
      apply (part_in g adj n _ _ C K Hn). exists (enbr g (twin e)). split; [exact H|]. symmetry. apply J. exact H.
Qed.

Lemma joined_part g adj v : chains g adj -> copies_ok g adj -> 0 <= gN g -> joined_lists g adj v = part_lists g adj (Z.to_nat (gN g)) v.
Proof.
  intros C K HN. unfold joined_lists.
  destruct ((1 <=? v) && (v <=? gN g)) eqn:E.
  - unfold part_lists. replace (v <=? gN g) with true by lia. reflexivity.
  - destruct (part_lists g adj (Z.to_nat (gN g)) v) as [|e l] eqn:Ep; [reflexivity|].
    assert (H : In e (part_lists g adj (Z.to_nat (gN g)) v)) by (rewrite Ep; now left).
    apply (part_in g adj (Z.to_nat (gN g)) v e C K ltac:(lia)) in H. destruct H as (u & He & Hu).
    pose proof (ch_isvertex _ _ _ _ C He) as Hv. unfold is_vertex in Hv. unfold part_prim in Hu.
    destruct ((gN g <? u) && (u <=? gN g + Z.of_nat (Z.to_nat (gN g)))) eqn:Eu; [|lia].
    assert (adj u <> []) by (destruct (adj u); [destruct He|discriminate]). pose proof (K u ltac:(lia) H). lia.
Qed.
