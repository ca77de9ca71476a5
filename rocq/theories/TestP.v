(** * TestP: the facial walk counts the faces. *)
From Verif Require Import Base BaseP GraphRec GraphM GraphSpec GSimp LinkP GraphP GraphP2 GraphP3 GraphP5
  DFSM DFSSpec DFSP RandP2 TestM TestSpec OrbitP.
From Coq Require Import Permutation.

Lemma cnext_from_split f l1 e l2 : ~ In e l1 -> cnext_from f (l1 ++ e :: l2) e = hd f l2.
Proof.
  induction l1 as [|a l1 IH]; cbn; intros N.
  - now rewrite Z.eqb_refl.
  - destruct (Z.eqb_spec a e); [subst; tauto|]. apply IH. tauto.
Qed.
Lemma cnext_split l1 e l2 : NoDup (l1 ++ e :: l2) -> cnext (l1 ++ e :: l2) e = hd (hd e l1) l2.
Proof.
  intros N. unfold cnext. rewrite cnext_from_split.
  - destruct l2; cbn; auto. destruct l1; reflexivity.
  - apply NoDup_mid in N as (_ & N). intros H; apply N; apply in_app_iff; now left.
Qed.
Lemma cnext_in l e : NoDup l -> In e l -> In (cnext l e) l.
Proof.
  intros N H. apply in_split in H as (l1 & l2 & ->). rewrite cnext_split by auto.
  destruct l2; cbn; [|apply in_app_iff; right; right; now left].
  destruct l1; cbn; auto.
Qed.
Lemma map_cnext_from f l : NoDup l -> map (cnext_from f l) l = tl (l ++ [f]).
Proof.
  induction l as [|a l IH]; intros N; [reflexivity|]. inversion N; subst.
  cbn [map]. cbn [cnext_from]. rewrite Z.eqb_refl.
  rewrite (map_ext_in _ (cnext_from f l)).
  - rewrite IH by auto. destruct l; reflexivity.
  - intros x Hx. destruct (Z.eqb_spec a x); [subst; tauto|reflexivity].
Qed.
Lemma NoDup_map_inj {A B} (f : A -> B) l x y : NoDup (map f l) -> In x l -> In y l -> f x = f y -> x = y.
Proof.
  induction l as [|a l IH]; cbn; intros N Hx Hy E; [tauto|]. inversion N; subst.
  destruct Hx as [->|Hx], Hy as [->|Hy]; auto.
  - exfalso; apply H1. rewrite E. now apply in_map.
  - exfalso; apply H1. rewrite <- E. now apply in_map.
Qed.
Lemma cnext_inj l a b : NoDup l -> In a l -> In b l -> cnext l a = cnext l b -> a = b.
Proof.
  intros N. apply NoDup_map_inj. unfold cnext. rewrite map_cnext_from by auto.
  destruct l as [|x l]; [constructor|]. cbn. inversion N; subst.
  eapply Permutation_NoDup; [apply Permutation_cons_append|]. auto.
Qed.

Section Faces.
Variables (g : graph) (adj : Z -> list Z).
Hypothesis R : rep g adj.
Let f := face_step g adj.
Let L := all_arcs g adj.

Lemma arc_L e : In e L <-> is_arc adj e.
Proof. apply in_all_arcs, R. Qed.

Lemma step_src e : is_arc adj e -> In (f e) (adj (enbr g e)).
Proof.
  intros (v & H). apply cnext_in; [apply (ch_nodup _ _ (rep_chains _ _ R))|].
  now apply (rep_twins _ _ R) in H as [_ H].
Qed.
Lemma step_closed e : In e L -> In (f e) L.
Proof. intros H. apply arc_L in H. apply arc_L. eexists; now apply step_src. Qed.
Lemma step_inj a b : In a L -> In b L -> f a = f b -> a = b.
Proof.
  intros Ha Hb E. apply arc_L in Ha, Hb.
  pose proof (step_src _ Ha) as Sa. pose proof (step_src _ Hb) as Sb. rewrite <- E in Sb.
  pose proof (ch_disj _ _ (rep_chains _ _ R) _ _ _ Sa Sb) as En.
  destruct Ha as (va & Ha), Hb as (vb & Hb).
  apply (rep_twins _ _ R) in Ha as [_ Ha]. apply (rep_twins _ _ R) in Hb as [_ Hb].
  unfold f, face_step in E. rewrite <- En in E, Hb. apply cnext_inj in E; auto.
  - apply (f_equal twin) in E. now rewrite !twin_invol in E.
  - apply (ch_nodup _ _ (rep_chains _ _ R)).
Qed.

(** the model's circular successor *)
Lemma get_cnext v e : In e (adj v) -> gp_GetNextArcCircular g e = Ret (cnext (adj v) e).
Proof.
  intros H. pose proof (rep_chains _ _ R) as Ch.
  pose proof (ch_range _ _ Ch _ _ H) as Rg.
  assert (Vx : is_vertex g v) by (eapply ch_isvertex; eauto).
  pose proof (ch_nodup _ _ Ch v) as N. pose proof (rep_nonil _ _ v R) as NN.
  destruct (rep_twins _ _ R _ _ H) as [T1 _].
  unfold gp_GetNextArcCircular. rewrite get_next by (apply inE_true; lia). cbn [bind].
  pose proof (ch_first _ _ Ch _ Vx) as Fi.
  pose proof H as H'.
  apply in_split in H as (l1 & l2 & E).
  destruct (chains_links g adj v l1 e l2 Ch E) as [X1 X2].
  rewrite E in *. rewrite cnext_split by auto.
  assert (Tw : inE g (gp_GetTwinArc e) = true).
  { rewrite <- E in H'. rewrite twin_eq. now apply (twin_inE g adj v e). }
  rewrite get_nbr by auto. rewrite twin_eq, T1. cbn [bind].
  rewrite get_first by now apply inV_true.
  destruct l2 as [|x l2]; cbn [hd] in *.
  - replace (enext g e) with NIL by congruence. change (NIL =? NIL) with true. cbn [negb].
    rewrite Fi. destruct l1; reflexivity.
  - assert (x <> NIL). { intros ->. apply NN. apply in_app_iff. right; right; now left. }
    replace (enext g e) with x by congruence. destruct (Z.eqb_spec x NIL); [tauto|]. reflexivity.
Qed.
End Faces.

Definition evis (g : graph) (e : Z) : bool := negb (Z.land (eflags g e) EDGE_VISITED_MASK =? 0).

Lemma em_refl g : edge_marks_only g g.
Proof. constructor; reflexivity. Qed.
Lemma em_trans a b c : edge_marks_only a b -> edge_marks_only b c -> edge_marks_only a c.
Proof. intros [] []; constructor; try congruence; intros; etransitivity; eauto. Qed.
Lemma em_stack g s : edge_marks_only g (set_gstack g s).
Proof. constructor; reflexivity. Qed.
Lemma em_rep g h adj : edge_marks_only g h -> rep g adj -> rep h adj.
Proof. intros [] H. apply (rep_congr g); auto. Qed.
Lemma step_congr g h adj e : enbr h = enbr g -> face_step h adj e = face_step g adj e.
Proof. intros E; unfold face_step; now rewrite E. Qed.

Definition mark_e (g : graph) (e : Z) (b : bool) : graph :=
  set_eflags g (upd (eflags g) e ((if b then Z.lor else Z.ldiff) (eflags g e) EDGE_VISITED_MASK)).
Lemma em_mark g e b : edge_marks_only g (mark_e g e b).
Proof.
  constructor; try reflexivity. intros x. unfold mark_e; gsimp. rewrite upd_if.
  destruct (Z.eqb_spec x e); [subst|auto]. destruct b.
  - apply ldiff_lor_mask; reflexivity.
  - apply ldiff_ldiff_mask.
Qed.
Lemma evis_mark g e b x : evis (mark_e g e b) x = if x =? e then b else evis g x.
Proof.
  unfold evis, mark_e; gsimp. rewrite upd_if. destruct (Z.eqb_spec x e); auto. subst.
  destruct b.
  - unfold EDGE_VISITED_MASK. now rewrite visited_set.
  - now rewrite land_ldiff_mask.
Qed.
Lemma get_evis g e : inE g e = true -> exists z, gp_GetEdgeVisited g e = Ret z /\ negb (z =? 0) = evis g e.
Proof. intros H. unfold gp_GetEdgeVisited. rewrite rd_eflags_ok by auto. eexists; split; reflexivity. Qed.
Lemma set_evis_ok g e : inE g e = true -> gp_SetEdgeVisited g e = Ret (mark_e g e true).
Proof. intros H. unfold gp_SetEdgeVisited. rewrite rd_eflags_ok by auto. cbn [bind]. now rewrite wr_eflags_ok by auto. Qed.
Lemma clear_evis_ok g e : inE g e = true -> gp_ClearEdgeVisited g e = Ret (mark_e g e false).
Proof. intros H. unfold gp_ClearEdgeVisited. rewrite rd_eflags_ok by auto. cbn [bind]. now rewrite wr_eflags_ok by auto. Qed.

Section Walk.
Variables (g0 : graph) (adj : Z -> list Z).
Hypothesis R : rep g0 adj.
Notation f := (face_step g0 adj).
Notation L := (all_arcs g0 adj).

Lemma L_inE g e : edge_marks_only g0 g -> In e L -> inE g e = true.
Proof.
  intros F H. apply (arc_L g0 adj R) in H as (v & H). apply (ch_range _ _ (rep_chains _ _ R)) in H.
  apply inE_true. destruct F. unfold gp_EdgeIndexBound in *. lia.
Qed.

Lemma walk_ok s p (D : Z -> Prop) : In s L -> (1 <= p)%nat -> Nat.iter p f s = s ->
  (forall k, (1 <= k < p)%nat -> Nat.iter k f s <> s) ->
  (forall e, In e L -> D e -> D (f e)) -> ~ D s ->
  forall n k g, (k < p)%nat -> (p - k <= n)%nat -> edge_marks_only g0 g ->
    (forall e, In e L -> evis g e = true <-> D e \/ exists j, (1 <= j <= k)%nat /\ e = Nat.iter j f s) ->
    wp (face_walk_loop n g s (Nat.iter k f s)) (fun '(g', ok) =>
      ok = true /\ edge_marks_only g0 g' /\ gstack g' = gstack g /\
      forall e, In e L -> evis g' e = true <-> D e \/ exists j, (1 <= j <= p)%nat /\ e = Nat.iter j f s).
Proof.
  intros Hs Hp Ep Min Dcl Ds. induction n as [|n IH]; intros k g Hk Hn Fr V; [lia|].
  cbn [face_walk_loop].
  pose proof (iter_in f L (step_closed g0 adj R)) as In_it.
  set (e := Nat.iter k f s). assert (He : In e L) by now apply In_it.
  pose proof (em_rep _ _ _ Fr R) as R'.
  assert (Tw : In (twin e) (adj (enbr g0 e))).
  { apply (arc_L g0 adj R) in He as (v & He). exact (proj2 (rep_twins _ _ R _ _ He)). }
  rewrite twin_eq, (get_cnext g adj R' _ _ Tw). change (cnext (adj (enbr g0 e)) (twin e)) with (f e). cbn [bind].
  change (f e) with (Nat.iter (S k) f s).
  assert (Hn' : In (Nat.iter (S k) f s) L) by now apply In_it.
  destruct (get_evis g (Nat.iter (S k) f s)) as (z & -> & Ez); [now apply (L_inE g)|]. cbn [bind].
  rewrite Ez.
  assert (U : evis g (Nat.iter (S k) f s) = false).
  { destruct (evis g (Nat.iter (S k) f s)) eqn:Ev; auto. exfalso. apply V in Ev; auto.
    destruct Ev as [Dn|(j & Hj & Ej)].
    - apply Ds. rewrite <- Ep. replace p with ((p - S k) + S k)%nat by lia. rewrite iter_add.
      clear - Dn Dcl Hn' In_it R. induction (p - S k)%nat; [exact Dn|].
      rewrite iter_S. apply Dcl; auto.
    - symmetry in Ej. apply (iter_cancel f L (step_closed g0 adj R) (step_inj g0 adj R)) in Ej; auto; [|lia].
      apply (Min (S k - j)%nat); auto; lia. }
  rewrite U. cbn [negb]. rewrite set_evis_ok by now apply (L_inE g). cbn [bind].
  assert (V' : forall x, In x L -> evis (mark_e g (Nat.iter (S k) f s) true) x = true <->
     D x \/ exists j, (1 <= j <= S k)%nat /\ x = Nat.iter j f s).
  { intros x Hx. rewrite evis_mark. destruct (Z.eqb_spec x (Nat.iter (S k) f s)) as [->|Nx].
    - split; auto. intros _. right. exists (S k). split; [lia|auto].
    - rewrite V by auto. split; (intros [?|(j & ? & ?)]; [now left|right]).
      + exists j; split; [lia|auto].
      + exists j; split; auto. destruct (Nat.eq_dec j (S k)); [subst; tauto|lia]. }
  assert (Fr' : edge_marks_only g0 (mark_e g (Nat.iter (S k) f s) true)) by (eapply em_trans; [eauto|apply em_mark]).
  destruct (Z.eqb_spec (Nat.iter (S k) f s) s) as [Es|Es].
  - assert (p = S k). { destruct (Nat.eq_dec p (S k)); auto. exfalso; apply (Min (S k)); auto; lia. }
    subst p. cbn [wp]. do 3 (split; [auto|]). auto.
  - assert (S k <> p) by (intros <-; auto).
    eapply wp_mono; [apply (IH (S k)); auto; lia|].
    intros (g', ok) (? & ? & Hst & ?). do 2 (split; [auto|]). split; [rewrite Hst; reflexivity|auto].
Qed.

Definition reps (rs : list Z) (e : Z) : Prop := exists r, In r rs /\ same_face g0 adj r e.

Lemma faces_loop_ok : forall n g rs, (length (gstack g) < n)%nat -> edge_marks_only g0 g ->
  (forall e, In e (gstack g) -> In e L) ->
  NoDup rs -> (forall r, In r rs -> In r L) ->
  (forall r r', In r rs -> In r' rs -> same_face g0 adj r r' -> r = r') ->
  (forall e, In e L -> evis g e = true <-> reps rs e) ->
  (forall e, In e L -> reps rs e \/ In e (gstack g)) ->
  wp (faces_loop n g (Z.of_nat (length rs))) (fun '(g', nf) =>
    edge_marks_only g0 g' /\ gstack g' = [] /\ exists F, nf = Some F /\ num_faces g0 adj F).
Proof.
  induction n as [|n IH]; intros g rs Hn Fr St N HL I V C; [lia|].
  cbn [faces_loop]. unfold stk_empty, stk_pop. destruct (gstack g) as [|s st] eqn:Es.
  - cbn [wp]. split; [auto|]. split; [auto|]. eexists; split; [reflexivity|].
    exists rs. split; [auto|]. split; [intros r Hr; apply (arc_L g0 adj R); auto|]. split; [auto|]. split; [|reflexivity].
    intros x Hx. apply (arc_L g0 adj R) in Hx. destruct (C x Hx) as [H|[]]. exact H.
  - cbn [bind]. assert (Hs : In s L) by (apply St; now left).
    pose proof (em_trans _ _ _ Fr (em_stack g st)) as Fr1.
    destruct (get_evis (set_gstack g st) s) as (z & -> & Ez); [now apply (L_inE _ s Fr1)|]. cbn [bind].
    rewrite Ez. change (evis (set_gstack g st) s) with (evis g s).
    destruct (evis g s) eqn:Ev.
    + apply IH; auto.
      * cbn in *; lia.
      * intros e He. apply St; now right.
      * intros e He. destruct (C e He) as [H|[<-|H]]; auto. left. now apply V.
    + destruct (orbit_period f L (step_closed g0 adj R) (step_inj g0 adj R) s Hs) as (p & Hp & Ep & Nd & Min).
      assert (Ds : ~ reps rs s) by (intros H; apply V in H; congruence).
      assert (Lb : (length L <= efuel (set_gstack g st))%nat).
      { unfold efuel. pose proof (NoDup_range_len 2 (gp_EdgeIndexBound g0) L) as B.
        assert (gp_EdgeIndexBound (set_gstack g st) = gp_EdgeIndexBound g0) as ->
          by (destruct Fr1; unfold gp_EdgeIndexBound; congruence).
        specialize (B (NoDup_all_arcs _ _ (rep_chains _ _ R))).
        assert (forall e, In e L -> 2 <= e < gp_EdgeIndexBound g0) as Q.
        { intros e He. apply (arc_L g0 adj R) in He as (v & He). now apply (ch_range _ _ (rep_chains _ _ R)) in He. }
        specialize (B Q). lia. }
      apply wp_bind.
      pose proof (walk_ok s p (reps rs) Hs (proj1 Hp) Ep Min) as W.
      assert (Dcl : forall e, In e L -> reps rs e -> reps rs (f e)).
      { intros e _ (r & Hr & k & Ek). exists r; split; auto. exists (S k). rewrite iter_S. congruence. }
      specialize (W Dcl Ds (efuel (set_gstack g st)) 0%nat (set_gstack g st)).
      change (Nat.iter 0 f s) with s in W.
      eapply wp_mono; [apply W; auto; try lia|].
      * intros e He. change (evis (set_gstack g st) e) with (evis g e). rewrite V by auto.
        split; [now left|]. intros [?|(j & ? & _)]; auto; lia.
      * intros (g', ok) (-> & Fr' & St' & V'). cbn [negb]. gsimp_in St'.
        replace (Z.of_nat (length rs) + 1) with (Z.of_nat (length (s :: rs))) by (cbn; lia).
        assert (Mem : forall e, In e L -> (exists j, (1 <= j <= p)%nat /\ e = Nat.iter j f s) <-> same_face g0 adj s e).
        { intros e He. split.
          - intros (j & _ & ->). now exists j.
          - intros (k & <-). pose proof (orbit_in_list f L s p k Hs (proj1 Hp) Ep) as Ho.
            apply in_map_iff in Ho as (j & Ej & Hj). apply in_seq in Hj. exists j. split; [lia|congruence]. }
        assert (Nr : forall r, In r rs -> ~ same_face g0 adj r s).
        { intros r Hr H. apply Ds. now exists r. }
        apply IH; auto.
        -- rewrite St'. cbn in *; lia.
        -- intros e He. apply St. rewrite St' in He. now right.
        -- constructor; auto. intros H. apply (Nr s H). now exists 0%nat.
        -- intros r [<-|H]; auto.
        -- intros r r' [<-|Hr] [<-|Hr'] H; auto.
           ++ exfalso. destruct H as (k & H).
              apply (orbit_sym f L (step_closed g0 adj R) (step_inj g0 adj R)) in H as (j & H); auto.
              apply (Nr r' Hr'). now exists j.
           ++ exfalso. now apply (Nr r).
        -- intros e He. rewrite V' by auto. rewrite Mem by auto. split.
           ++ intros [(r & ? & ?)|H]; [exists r; split; auto; now right|exists s; split; auto; now left].
           ++ intros (r & [<-|Hr] & H); [now right|left; now exists r].
        -- intros e He. rewrite St'. destruct (C e He) as [(r & ? & ?)|[<-|H]]; auto.
           ++ left. exists r; split; auto; now right.
           ++ left. exists s. split; [now left|now exists 0%nat].
Qed.
End Walk.
