(** * LinkP: facts about doubly linked lists and the chain invariant. *)
From Coq Require Import ZifyBool Permutation.
From Verif Require Import Base BaseP GraphRec GraphM GraphSpec.

Lemma twin_eq e : gp_GetTwinArc e = twin e.
Proof. reflexivity. Qed.

(** ** hd / last *)
Lemma last_cons_ne {A} (x : A) l d : l <> [] -> last (x :: l) d = last l d.
Proof. destruct l; simpl; congruence. Qed.

Lemma last_in {A} (l : list A) d : l <> [] -> In (last l d) l.
Proof.
  intros H. destruct (exists_last H) as (l' & x & ->). rewrite last_snoc.
  rewrite in_app_iff; simpl; auto.
Qed.

Lemma hd_in {A} (l : list A) d : l <> [] -> In (hd d l) l.
Proof. destruct l; simpl; [congruence|auto]. Qed.

Lemma last_app_ne {A} (l1 l2 : list A) d : l2 <> [] -> last (l1 ++ l2) d = last l2 d.
Proof.
  intros H. destruct (exists_last H) as (l' & x & ->). now rewrite app_assoc, !last_snoc.
Qed.

Lemma last_default {A} (l : list A) d d' : l <> [] -> last l d = last l d'.
Proof. intros H. destruct (exists_last H) as (l' & x & ->). now rewrite !last_snoc. Qed.

Lemma list_snoc {A} (l : list A) : l = [] \/ exists l' x, l = l' ++ [x].
Proof. induction l using rev_ind; eauto. Qed.

(** ** linked *)
Lemma linked_ext nx pv nx' pv' l : forall p q,
  (forall e, In e l -> nx' e = nx e /\ pv' e = pv e) ->
  linked nx pv p l q -> linked nx' pv' p l q.
Proof.
  induction l as [|e l IH]; simpl; intros p q He H; auto.
  destruct H as (H1 & H2 & H3). destruct (He e) as [E1 E2]; auto.
  rewrite E1, E2. repeat split; auto.
Qed.

Lemma linked_app nx pv l1 l2 p q :
  linked nx pv p (l1 ++ l2) q <-> linked nx pv p l1 (hd q l2) /\ linked nx pv (last l1 p) l2 q.
Proof.
  revert p. induction l1 as [|e l1 IH]; intros p.
  - simpl; tauto.
  - simpl app. simpl linked at 1 2. rewrite IH.
    assert (Hl : last (e :: l1) p = last l1 e).
    { destruct l1 as [|a l1']; [reflexivity|].
      rewrite last_cons_ne by congruence. apply last_default; congruence. }
    rewrite Hl.
    assert (Hh : hd q (l1 ++ l2) = hd (hd q l2) l1) by (destruct l1; reflexivity).
    rewrite Hh. tauto.
Qed.

Lemma linked_mid nx pv l1 e l2 p q :
  linked nx pv p (l1 ++ e :: l2) q -> pv e = last l1 p /\ nx e = hd q l2.
Proof. rewrite linked_app. simpl. tauto. Qed.

Lemma linked_char nx pv l : forall p q,
  linked nx pv p l q <->
  (forall l1 e l2, l = l1 ++ e :: l2 -> pv e = last l1 p /\ nx e = hd q l2).
Proof.
  induction l as [|a l IH]; intros p q; simpl.
  - split; auto. intros _ l1 e l2 H. destruct l1; discriminate.
  - split.
    + intros H l1 e l2 E. eapply linked_mid. rewrite <- E. exact H.
    + intros H. destruct (H [] a l eq_refl) as [H1 H2]. simpl in H1.
      repeat split; auto. apply IH. intros l1 e l2 E. subst l.
      destruct (H (a :: l1) e l2 eq_refl) as [H3 H4]. split; auto.
      rewrite H3. destruct l1 as [|b l1']; [reflexivity|].
      rewrite last_cons_ne by congruence. apply last_default; congruence.
Qed.

(** The list is determined by the links. *)
Lemma linked_unique nx pv l : forall l' p,
  hd NIL l = hd NIL l' -> ~ In NIL l -> ~ In NIL l' ->
  linked nx pv p l NIL -> linked nx pv p l' NIL -> l = l'.
Proof.
  induction l as [|a l IH]; intros l' p Hh Hn Hn' H H'.
  - destruct l' as [|b l']; auto. simpl in *. exfalso; apply Hn'; auto.
  - destruct l' as [|b l']; simpl in *.
    + exfalso; apply Hn; auto.
    + subst b. f_equal. destruct H as (_ & H2 & H3), H' as (_ & H2' & H3').
      eapply IH; eauto. congruence.
Qed.

(** ** Effect of inserting / deleting one arc at a known position *)
Definition isnil (l : list Z) : bool := match l with [] => true | _ => false end.

Record ins_effect (g g' : graph) (v : Z) (l1 l2 : list Z) (new : Z) : Prop := {
  ie_frame : frame_links g g';
  ie_next : forall x, enext g' x =
     if x =? new then hd NIL l2
     else if negb (isnil l1) && (x =? last l1 NIL) then new else enext g x;
  ie_prev : forall x, eprev g' x =
     if x =? new then last l1 NIL
     else if negb (isnil l2) && (x =? hd NIL l2) then new else eprev g x;
  ie_first : forall x, vfirst g' x = if isnil l1 && (x =? v) then new else vfirst g x;
  ie_last : forall x, vlast g' x = if isnil l2 && (x =? v) then new else vlast g x }.

Record del_effect (g g' : graph) (v : Z) (l1 l2 : list Z) : Prop := {
  de_frame : frame_links g g';
  de_next : forall x, enext g' x =
     if negb (isnil l1) && (x =? last l1 NIL) then hd NIL l2 else enext g x;
  de_prev : forall x, eprev g' x =
     if negb (isnil l2) && (x =? hd NIL l2) then last l1 NIL else eprev g x;
  de_first : forall x, vfirst g' x = if isnil l1 && (x =? v) then hd NIL l2 else vfirst g x;
  de_last : forall x, vlast g' x = if isnil l2 && (x =? v) then last l1 NIL else vlast g x }.

Lemma isnil_true l : isnil l = true -> l = [].
Proof. destruct l; simpl; congruence. Qed.

Lemma frame_links_refl g : frame_links g g.
Proof. constructor; reflexivity. Qed.
Lemma frame_links_trans a b c : frame_links a b -> frame_links b c -> frame_links a c.
Proof. intros [] []; constructor; congruence. Qed.
Lemma frame_vertex g h v : frame_links g h -> is_vertex h v <-> is_vertex g v.
Proof. intros F. unfold is_vertex. now rewrite (fl_N _ _ F). Qed.
Lemma frame_ebound g h : frame_links g h -> gp_EdgeIndexBound h = gp_EdgeIndexBound g.
Proof. intros F. unfold gp_EdgeIndexBound. now rewrite (fl_cap _ _ F). Qed.
Lemma frame_bound g h : frame_links g h -> gp_EdgeInUseIndexBound h = gp_EdgeInUseIndexBound g.
Proof. intros F. unfold gp_EdgeInUseIndexBound. now rewrite (fl_M _ _ F), (fl_holes _ _ F). Qed.

Lemma ch_nonnil g adj v e : chains g adj -> In e (adj v) -> e <> NIL.
Proof. intros C H. pose proof (ch_range _ _ C _ _ H). unfold NIL; lia. Qed.

Lemma ch_isvertex g adj v e : chains g adj -> In e (adj v) -> is_vertex g v.
Proof.
  intros C H. destruct (Z_le_dec 1 v) as [H1|H1];
    [destruct (Z_le_dec v (2 * gN g)) as [H2|H2]|].
  - split; auto.
  - rewrite (ch_out _ _ C v) in H; [destruct H|]. unfold is_vertex; lia.
  - rewrite (ch_out _ _ C v) in H; [destruct H|]. unfold is_vertex; lia.
Qed.

Lemma chains_ext g adj adj' : chains g adj -> (forall v, adj' v = adj v) -> chains g adj'.
Proof.
  intros C E. constructor; intros *; rewrite ?E; try apply C.
Qed.

(** Links of a listed arc. *)
Lemma chains_links g adj v l1 e l2 :
  chains g adj -> adj v = l1 ++ e :: l2 ->
  eprev g e = last l1 NIL /\ enext g e = hd NIL l2.
Proof.
  intros C E. assert (Hv : is_vertex g v).
  { eapply ch_isvertex; eauto. rewrite E, in_app_iff; simpl; auto. }
  pose proof (ch_linked _ _ C v Hv) as L. rewrite E in L. apply linked_mid in L. exact L.
Qed.

(** The lists are determined by the state. *)
Lemma chains_unique g adj adj' : chains g adj -> chains g adj' -> forall v, adj v = adj' v.
Proof.
  intros C C' v. destruct (Z_le_dec 1 v) as [H1|H1];
    [destruct (Z_le_dec v (2 * gN g)) as [H2|H2]|].
  - assert (Hv : is_vertex g v) by (split; auto).
    eapply linked_unique.
    + rewrite <- (ch_first _ _ C v Hv), <- (ch_first _ _ C' v Hv). reflexivity.
    + intros H. exact (ch_nonnil _ _ _ _ C H eq_refl).
    + intros H. exact (ch_nonnil _ _ _ _ C' H eq_refl).
    + apply (ch_linked _ _ C v Hv).
    + apply (ch_linked _ _ C' v Hv).
  - rewrite (ch_out _ _ C), (ch_out _ _ C'); auto; unfold is_vertex; lia.
  - rewrite (ch_out _ _ C), (ch_out _ _ C'); auto; unfold is_vertex; lia.
Qed.

Lemma NoDup_mid {A} (l1 l2 : list A) x : NoDup (l1 ++ x :: l2) <-> NoDup (l1 ++ l2) /\ ~ In x (l1 ++ l2).
Proof.
  split.
  - intros H. split; [eapply NoDup_remove_1; eauto|eapply NoDup_remove_2; eauto].
  - intros [H1 H2]. apply NoDup_app_intro.
    + eapply NoDup_app_l; eauto.
    + constructor; [|eapply NoDup_app_r; eauto]. intros H; apply H2; rewrite in_app_iff; auto.
    + intros y Hy [<-|Hy2]; [apply H2; rewrite in_app_iff; auto|].
      eapply NoDup_app_disj; eauto.
Qed.

Lemma hd_ne_default {A} (l : list A) d d' : l <> [] -> hd d l = hd d' l.
Proof. destruct l; simpl; congruence. Qed.

(** In a duplicate-free list, the last element of a prefix occurs only there. *)
Lemma split_last_unique {A} (l1 l2 a b : list A) x d :
  NoDup (l1 ++ l2) -> l1 ++ l2 = a ++ x :: b -> l1 <> [] -> x = last l1 d -> b = l2.
Proof.
  intros N E Hne Hx. destruct (exists_last Hne) as (l1' & y & ->). rewrite last_snoc in Hx. subst y.
  rewrite <- app_assoc in *. simpl in *.
  destruct (NoDup_split_unique l1' l2 a b x N E) as [_ ->]. reflexivity.
Qed.

Lemma split_hd_unique {A} (l1 l2 a b : list A) x d :
  NoDup (l1 ++ l2) -> l1 ++ l2 = a ++ x :: b -> l2 <> [] -> x = hd d l2 -> a = l1.
Proof.
  intros N E Hne Hx. destruct l2 as [|y l2]; [congruence|]. simpl in Hx; subst y.
  destruct (NoDup_split_unique l1 l2 a b x N E) as [-> _]. reflexivity.
Qed.

Lemma isnil_false l : l <> [] -> isnil l = false.
Proof. destruct l; simpl; congruence. Qed.

Lemma eqb_false_neq x y : x <> y -> (x =? y) = false.
Proof. intros; now apply Z.eqb_neq. Qed.

(** Inserting keeps the chain invariant. *)
Lemma chains_insert g g' adj v l1 l2 new :
  chains g adj -> is_vertex g v -> adj v = l1 ++ l2 ->
  (forall w, ~ In new (adj w)) -> 2 <= new < gp_EdgeIndexBound g ->
  ins_effect g g' v l1 l2 new ->
  chains g' (upd adj v (l1 ++ new :: l2)).
Proof.
  intros C Hv Ev Hf Hr [F En Ep Ef El].
  assert (Nd : NoDup (l1 ++ l2)) by (rewrite <- Ev; apply C).
  assert (Hnew : ~ In new (l1 ++ l2)) by (rewrite <- Ev; apply Hf).
  assert (Nd' : NoDup (l1 ++ new :: l2)) by (apply NoDup_mid; auto).
  assert (HnN : new <> NIL) by (unfold NIL; lia).
  constructor.
  - intros w Hw. rewrite (frame_vertex _ _ _ F) in Hw. rewrite Ef. unfold upd.
    destruct (Z.eqb_spec w v) as [->|Hne]; [|rewrite andb_false_r; now apply C].
    rewrite andb_true_r. destruct l1 as [|a l1']; [reflexivity|]. simpl.
    rewrite (ch_first _ _ C v Hv), Ev. reflexivity.
  - intros w Hw. rewrite (frame_vertex _ _ _ F) in Hw. rewrite El. unfold upd.
    destruct (Z.eqb_spec w v) as [->|Hne]; [|rewrite andb_false_r; now apply C].
    rewrite andb_true_r. destruct l2 as [|a l2']; simpl.
    + now rewrite last_snoc.
    + rewrite (ch_last _ _ C v Hv), Ev. rewrite !last_app_ne by congruence.
      now rewrite (last_cons_ne new) by congruence.
  - intros w Hw. rewrite (frame_vertex _ _ _ F) in Hw. unfold upd.
    destruct (Z.eqb_spec w v) as [->|Hne].
    + apply linked_char. intros a x b E.
      pose proof (ch_linked _ _ C v Hv) as L. rewrite Ev in L.
      assert (Hcase : (a = l1 /\ x = new /\ b = l2) \/
                      (exists c, l1 = a ++ x :: c /\ b = c ++ new :: l2) \/
                      (exists c, a = l1 ++ new :: c /\ l2 = c ++ x :: b)).
      { clear - E. revert a E. induction l1 as [|y l1 IH]; intros a E; simpl in E.
        - destruct a as [|z a]; simpl in E; injection E as -> E.
          + left; auto.
          + right; right. exists a; auto.
        - destruct a as [|z a]; simpl in E; injection E as -> E.
          + right; left. exists l1; auto.
          + destruct (IH a E) as [(-> & -> & ->)|[(c & -> & ->)|(c & -> & ->)]].
            * left; auto.
            * right; left; exists c; auto.
            * right; right; exists c; auto. }
      rewrite Ep, En.
      destruct Hcase as [(-> & -> & ->)|[(c & -> & ->)|(c & -> & ->)]].
      * rewrite Z.eqb_refl. auto.
      * (* x before the new arc *)
        assert (Hx : In x ((a ++ x :: c) ++ l2)) by (rewrite !in_app_iff; simpl; auto).
        assert (Hxn : x <> new) by (intros ->; tauto).
        rewrite (eqb_false_neq _ _ Hxn). rewrite <- app_assoc in L; simpl in L.
        apply linked_mid in L as L'. destruct L' as [P Q].
        split.
        -- destruct l2 as [|y l2']; simpl; [exact P|].
           destruct (Z.eqb_spec x y) as [->|]; [|exact P].
           exfalso. clear - Nd. rewrite <- app_assoc in Nd. apply NoDup_app_r in Nd. simpl in Nd.
           inversion Nd; subst. apply H1. rewrite in_app_iff; simpl; auto.
        -- rewrite isnil_false by (destruct a; discriminate). simpl negb. rewrite andb_true_l.
           rewrite last_app_ne by congruence.
           destruct c as [|y c']; simpl last; simpl hd.
           ++ now rewrite Z.eqb_refl.
           ++ rewrite eqb_false_neq; [simpl in Q; exact Q|].
              intros Hx'. assert (In x (y :: c')).
              { rewrite Hx'. change (match c' with [] => y | _ :: _ => last c' NIL end)
                  with (last (y :: c') NIL). apply last_in; congruence. }
              apply NoDup_app_l in Nd. apply NoDup_app_r in Nd. inversion Nd; tauto.
      * (* x after the new arc *)
        assert (Hx : In x (l1 ++ c ++ x :: b)) by (rewrite !in_app_iff; simpl; auto).
        assert (Hxn : x <> new) by (intros ->; tauto).
        rewrite (eqb_false_neq _ _ Hxn). rewrite app_assoc in L.
        apply linked_mid in L as L'. destruct L' as [P Q].
        split.
        -- rewrite isnil_false by (destruct c; discriminate). simpl negb. rewrite andb_true_l.
           destruct c as [|y c']; simpl hd.
           ++ rewrite Z.eqb_refl. now rewrite last_snoc.
           ++ rewrite eqb_false_neq.
              ** rewrite P. rewrite !last_app_ne by congruence.
                 now rewrite (last_cons_ne new) by congruence.
              ** intros ->. apply NoDup_app_r in Nd. simpl in Nd. inversion Nd; subst.
                 apply H1. rewrite in_app_iff; simpl; auto.
        -- destruct l1 as [|y l1']; simpl isnil; simpl negb.
           ++ rewrite andb_false_l. exact Q.
           ++ rewrite andb_true_l. rewrite eqb_false_neq; [exact Q|].
              intros Hx'. eapply (NoDup_app_disj _ _ x Nd).
              ** rewrite Hx'. apply last_in; congruence.
              ** rewrite in_app_iff; simpl; auto.
    + eapply linked_ext; [|apply (ch_linked _ _ C w Hw)].
      intros e He. rewrite En, Ep.
      assert (Hen : e <> new) by (intros ->; exact (Hf w He)).
      rewrite (eqb_false_neq _ _ Hen).
      assert (Hev : ~ In e (l1 ++ l2)).
      { intros H. rewrite <- Ev in H. apply Hne. eapply ch_disj; eauto. }
      split.
      * destruct l1 as [|y l1']; [reflexivity|]. simpl isnil; simpl negb; rewrite andb_true_l.
        rewrite eqb_false_neq; auto. intros ->. apply Hev. rewrite in_app_iff; left.
        apply last_in; congruence.
      * destruct l2 as [|y l2']; [reflexivity|]. simpl isnil; simpl negb; rewrite andb_true_l.
        rewrite eqb_false_neq; auto. intros ->. apply Hev. rewrite in_app_iff; right.
        simpl; auto.
  - intros w Hw. rewrite (frame_vertex _ _ _ F) in Hw. unfold upd.
    destruct (Z.eqb_spec w v) as [->|]; [contradiction|now apply C].
  - intros w. unfold upd. destruct (Z.eqb_spec w v); [exact Nd'|apply C].
  - intros w w' e. unfold upd.
    destruct (Z.eqb_spec w v) as [->|Hw], (Z.eqb_spec w' v) as [->|Hw']; intros H H'; auto.
    + rewrite in_app_iff in H; simpl in H.
      destruct H as [H|[<-|H]]; [|exfalso; eapply Hf; eauto|];
        (eapply (ch_disj _ _ C); [|exact H']; rewrite Ev, in_app_iff; auto).
    + rewrite in_app_iff in H'; simpl in H'.
      destruct H' as [H'|[<-|H']]; [|exfalso; eapply Hf; eauto|];
        (eapply (ch_disj _ _ C); [exact H|]; rewrite Ev, in_app_iff; auto).
    + eapply (ch_disj _ _ C); eauto.
  - intros w e. rewrite (frame_ebound _ _ F). unfold upd.
    destruct (Z.eqb_spec w v) as [->|]; [|apply C].
    rewrite in_app_iff; simpl. intros [H|[<-|H]]; [|exact Hr|];
      (eapply (ch_range _ _ C v); rewrite Ev, in_app_iff; auto).
Qed.

(** Deleting keeps the chain invariant. *)
Lemma chains_delete g g' adj v l1 arc l2 :
  chains g adj -> adj v = l1 ++ arc :: l2 ->
  del_effect g g' v l1 l2 ->
  chains g' (upd adj v (l1 ++ l2)).
Proof.
  intros C Ev [F En Ep Ef El].
  assert (Hin : In arc (adj v)) by (rewrite Ev, in_app_iff; simpl; auto).
  assert (Hv : is_vertex g v) by (eapply ch_isvertex; eauto).
  assert (Nd0 : NoDup (l1 ++ arc :: l2)) by (rewrite <- Ev; apply C).
  assert (Nd : NoDup (l1 ++ l2)) by (eapply NoDup_remove_1; eauto).
  assert (Sub : forall x, In x (l1 ++ l2) -> In x (adj v)).
  { intros x. rewrite Ev, !in_app_iff; simpl; tauto. }
  constructor.
  - intros w Hw. rewrite (frame_vertex _ _ _ F) in Hw. rewrite Ef. unfold upd.
    destruct (Z.eqb_spec w v) as [->|Hne]; [|rewrite andb_false_r; now apply C].
    rewrite andb_true_r. destruct l1 as [|a l1']; [reflexivity|]. simpl.
    rewrite (ch_first _ _ C v Hv), Ev. reflexivity.
  - intros w Hw. rewrite (frame_vertex _ _ _ F) in Hw. rewrite El. unfold upd.
    destruct (Z.eqb_spec w v) as [->|Hne]; [|rewrite andb_false_r; now apply C].
    rewrite andb_true_r. destruct l2 as [|a l2']; simpl.
    + now rewrite app_nil_r.
    + rewrite (ch_last _ _ C v Hv), Ev. rewrite !last_app_ne by congruence.
      now rewrite (last_cons_ne arc) by congruence.
  - intros w Hw. rewrite (frame_vertex _ _ _ F) in Hw. unfold upd.
    destruct (Z.eqb_spec w v) as [->|Hne].
    + apply linked_char. intros a x b E.
      pose proof (ch_linked _ _ C v Hv) as L. rewrite Ev in L.
      rewrite Ep, En.
      assert (Hcase : (exists c, l1 = a ++ x :: c /\ b = c ++ l2) \/
                      (exists c, a = l1 ++ c /\ l2 = c ++ x :: b)).
      { clear - E. revert a E. induction l1 as [|y l1 IH]; intros a E; simpl in E.
        - right. exists a; auto.
        - destruct a as [|z a]; simpl in E; injection E as -> E.
          + left. exists l1; auto.
          + destruct (IH a E) as [(c & -> & ->)|(c & -> & ->)].
            * left; exists c; auto.
            * right; exists c; auto. }
      destruct Hcase as [(c & -> & ->)|(c & -> & ->)].
      * rewrite <- app_assoc in L; simpl in L.
        apply linked_mid in L as L'. destruct L' as [P Q].
        split.
        -- destruct l2 as [|y l2']; simpl; [exact P|].
           destruct (Z.eqb_spec x y) as [->|]; [|exact P].
           exfalso. clear - Nd. rewrite <- app_assoc in Nd. apply NoDup_app_r in Nd. simpl in Nd.
           inversion Nd; subst. apply H1. rewrite in_app_iff; simpl; auto.
        -- rewrite isnil_false by (destruct a; discriminate). simpl negb. rewrite andb_true_l.
           rewrite last_app_ne by congruence.
           destruct c as [|y c']; simpl last.
           ++ now rewrite Z.eqb_refl.
           ++ rewrite eqb_false_neq; [simpl in *; exact Q|].
              intros Hx'. assert (In x (y :: c')).
              { rewrite Hx'. change (match c' with [] => y | _ :: _ => last c' NIL end)
                  with (last (y :: c') NIL). apply last_in; congruence. }
              apply NoDup_app_l in Nd. apply NoDup_app_r in Nd. inversion Nd; tauto.
      * assert (L2 : linked (enext g) (eprev g) NIL ((l1 ++ arc :: c) ++ x :: b) NIL).
        { rewrite <- app_assoc. exact L. }
        apply linked_mid in L2 as L'. destruct L' as [P Q].
        split.
        -- rewrite isnil_false by (destruct c; discriminate). simpl negb. rewrite andb_true_l.
           destruct c as [|y c']; simpl hd.
           ++ rewrite Z.eqb_refl. now rewrite app_nil_r.
           ++ rewrite eqb_false_neq.
              ** rewrite P. rewrite !last_app_ne by congruence.
                 now rewrite (last_cons_ne arc) by congruence.
              ** intros ->. apply NoDup_app_r in Nd. simpl in Nd. inversion Nd; subst.
                 apply H1. rewrite in_app_iff; simpl; auto.
        -- destruct l1 as [|y l1']; simpl isnil; simpl negb.
           ++ rewrite andb_false_l. exact Q.
           ++ rewrite andb_true_l. rewrite eqb_false_neq; [exact Q|].
              intros Hx'. eapply (NoDup_app_disj _ _ x Nd).
              ** rewrite Hx'. apply last_in; congruence.
              ** rewrite in_app_iff; simpl; auto.
    + eapply linked_ext; [|apply (ch_linked _ _ C w Hw)].
      intros e He. rewrite En, Ep.
      assert (Hev : ~ In e (l1 ++ l2)).
      { intros H. apply Sub in H. apply Hne. eapply ch_disj; eauto. }
      split.
      * destruct l1 as [|y l1']; [reflexivity|]. simpl isnil; simpl negb; rewrite andb_true_l.
        rewrite eqb_false_neq; auto. intros ->. apply Hev. rewrite in_app_iff; left.
        apply last_in; congruence.
      * destruct l2 as [|y l2']; [reflexivity|]. simpl isnil; simpl negb; rewrite andb_true_l.
        rewrite eqb_false_neq; auto. intros ->. apply Hev. rewrite in_app_iff; right.
        simpl; auto.
  - intros w Hw. rewrite (frame_vertex _ _ _ F) in Hw. unfold upd.
    destruct (Z.eqb_spec w v) as [->|]; [contradiction|now apply C].
  - intros w. unfold upd. destruct (Z.eqb_spec w v); [exact Nd|apply C].
  - intros w w' e. unfold upd.
    destruct (Z.eqb_spec w v) as [->|Hw], (Z.eqb_spec w' v) as [->|Hw']; intros H H'; auto;
      apply (ch_disj _ _ C _ _ e); auto.
  - intros w e. rewrite (frame_ebound _ _ F). unfold upd.
    destruct (Z.eqb_spec w v) as [->|]; [|apply C].
    intros H. apply (ch_range _ _ C v); auto.
Qed.
