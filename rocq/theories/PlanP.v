(** * PlanP: taking edges away from a planar rotation system leaves a planar one. *)
From Coq Require Import ZifyBool Permutation.
From Verif Require Import Base BaseP GraphRec GraphM GraphSpec LinkP DFSSpec TestSpec TestP TestP3 FaceP.

(** ** Counting *)
Definition cnt {A} (f : A -> bool) (l : list A) : Z := Z.of_nat (length (filter f l)).
Lemma cnt_cons {A} (f : A -> bool) x l : cnt f (x :: l) = (if f x then 1 else 0) + cnt f l.
Proof. unfold cnt. cbn [filter]. destruct (f x); cbn [length]; lia. Qed.
Lemma cnt_nil {A} (f : A -> bool) : cnt f [] = 0.
Proof. reflexivity. Qed.
Lemma cnt_ext {A} (f f' : A -> bool) l : (forall x, In x l -> f' x = f x) -> cnt f' l = cnt f l.
Proof. induction l as [|x l IH]; intros H; [reflexivity|]. rewrite !cnt_cons, H by now left. rewrite IH by (intros; apply H; now right). lia. Qed.
Lemma cnt_point (f f' : Z -> bool) l a : NoDup l -> In a l -> (forall x, In x l -> x <> a -> f' x = f x) ->
  cnt f' l = cnt f l - (if f a then 1 else 0) + (if f' a then 1 else 0).
Proof.
  induction l as [|x l IH]; intros Nd Ha H; [destruct Ha|]. apply NoDup_cons_iff in Nd. destruct Nd as [N1 N2]. rewrite !cnt_cons.
  destruct (Z.eq_dec x a) as [->|Ne].
  - rewrite (cnt_ext f f'); [lia|]. intros y Hy. apply H; [now right|]. intros ->. contradiction.
  - destruct Ha as [Ha|Ha]; [congruence|]. rewrite (IH N2 Ha); [|intros; apply H; auto; now right]. rewrite (H x (or_introl eq_refl) Ne). lia.
Qed.
Lemma cnt_perm {A} (f : A -> bool) l l' : Permutation l l' -> cnt f l = cnt f l'.
Proof. induction 1; rewrite ?cnt_cons; lia. Qed.
Lemma cnt_app {A} (f : A -> bool) l l' : cnt f (l ++ l') = cnt f l + cnt f l'.
Proof. unfold cnt. rewrite filter_app, app_length. lia. Qed.
Lemma cnt_all {A} (f : A -> bool) l : (forall x, In x l -> f x = true) -> cnt f l = Z.of_nat (length l).
Proof. induction l as [|x l IH]; intros H; [reflexivity|]. rewrite cnt_cons, H by now left. rewrite IH by (intros; apply H; now right). cbn [length]. lia. Qed.
Lemma cnt_none {A} (f : A -> bool) l : (forall x, In x l -> f x = false) -> cnt f l = 0.
Proof. induction l as [|x l IH]; intros H; [reflexivity|]. rewrite cnt_cons, H by now left. rewrite IH by (intros; apply H; now right). lia. Qed.
Lemma cnt_le {A} (f f' : A -> bool) l : (forall x, In x l -> f x = true -> f' x = true) -> cnt f l <= cnt f' l.
Proof.
  induction l as [|x l IH]; intros H; [reflexivity|]. rewrite !cnt_cons. pose proof (H x (or_introl eq_refl)). assert (cnt f l <= cnt f' l) by (apply IH; intros; apply H; auto; now right).
  destruct (f x), (f' x); try lia.
Qed.
Lemma cnt_nonneg {A} (f : A -> bool) l : 0 <= cnt f l.
Proof. unfold cnt. lia. Qed.
Definition nilb {A} (l : list A) : bool := match l with [] => true | _ => false end.
Lemma nilb_true {A} (l : list A) : nilb l = true <-> l = [].
Proof. destruct l; cbn; split; congruence. Qed.
Lemma nilb_false {A} (l : list A) : nilb l = false <-> l <> [].
Proof. destruct l; cbn; split; congruence. Qed.
Definition inl (x : Z) (l : list Z) : bool := existsb (Z.eqb x) l.
Lemma inl_true x l : inl x l = true <-> In x l.
Proof. unfold inl. rewrite existsb_exists. split; [intros (y & H & E); apply Z.eqb_eq in E; now subst|intros H; exists x; split; [auto|apply Z.eqb_refl]]. Qed.
Lemma inl_false x l : inl x l = false <-> ~ In x l.
Proof. rewrite <- inl_true. destruct (inl x l); split; congruence. Qed.

Lemma filter_same {A} (f : A -> bool) l : (forall x, In x l -> f x = true) -> filter f l = l.
Proof. induction l as [|x l IH]; intros H; [reflexivity|]. cbn. rewrite H, IH; auto; [intros; apply H; now right|now left]. Qed.

(** ** Cyclic successor *)
Lemma cnext_remove L e t : NoDup L -> In e L -> In t L -> t <> e ->
  cnext (filter (fun x => negb (x =? e)) L) t = if cnext L t =? e then cnext L e else cnext L t.
Proof.
  intros Nd He Ht Ne. apply in_split in He as (l1 & l2 & ->). pose proof (proj1 (NoDup_mid l1 l2 e) Nd) as [Nd' Nf].
  assert (Fl : filter (fun x => negb (x =? e)) (l1 ++ e :: l2) = l1 ++ l2).
  { rewrite filter_app. cbn [filter]. rewrite Z.eqb_refl. cbn [negb]. rewrite <- filter_app.
    apply filter_same. intros x Hx. destruct (Z.eqb_spec x e) as [->|]; [contradiction|reflexivity]. }
  rewrite Fl. assert (Nd2 : NoDup (l2 ++ l1)) by (eapply Permutation_NoDup; [apply Permutation_app_comm|exact Nd']).
  assert (Tm : In t (l1 ++ l2)) by (rewrite in_app_iff in *; cbn [In] in Ht; destruct Ht as [|[|]]; [auto|congruence|auto]).
  assert (Tm2 : In t (l2 ++ l1)) by (rewrite in_app_iff in *; tauto).
  rewrite <- (cnext_turn l1 l2 t Nd' Tm). rewrite <- (cnext_turn l1 (e :: l2) t Nd Ht).
  rewrite <- (cnext_turn l1 (e :: l2) e Nd) by (apply in_app_iff; right; now left). cbn [app].
  assert (Nd3 : NoDup (e :: l2 ++ l1)) by (constructor; [rewrite in_app_iff in *; tauto|auto]).
  rewrite (cnext_cons e (l2 ++ l1) t Nd3 Tm2), cnext_first. set (M := l2 ++ l1) in *.
  assert (NM : ~ In e M) by (apply NoDup_cons_iff in Nd3; apply Nd3).
  destruct (Z.eqb_spec t (last M NIL)) as [E|E].
  - rewrite Z.eqb_refl. destruct (list_snoc M) as [->|(M' & x & EM)]; [destruct Tm2|]. rewrite EM in *. rewrite last_snoc in E. subst x. rewrite cnext_last by auto.
    destruct M'; [reflexivity|]. reflexivity.
  - destruct (Z.eqb_spec (cnext M t) e) as [E2|]; [|reflexivity]. elim NM. rewrite <- E2. now apply cnext_in.
Qed.
Lemma cnext_single L t : NoDup L -> In t L -> cnext L t = t -> L = [t].
Proof.
  intros Nd H E. apply in_split in H as (l1 & l2 & ->). rewrite cnext_split in E by auto. destruct l2 as [|y l2]; cbn [hd] in E.
  - destruct l1 as [|y l1]; [reflexivity|]. cbn in E. subst y. cbn in Nd. apply NoDup_cons_iff in Nd. elim (proj1 Nd). apply in_app_iff. right. now left.
  - subst y. apply NoDup_app_r in Nd. apply NoDup_cons_iff in Nd. elim (proj1 Nd). now left.
Qed.
Lemma cnext_pred L t : NoDup L -> In t L -> exists s, In s L /\ cnext L s = t.
Proof.
  intros Nd H. apply in_split in H as (l1 & l2 & ->). destruct (list_snoc l1) as [->|(l1' & x & ->)].
  - destruct (list_snoc l2) as [->|(l2' & x & ->)].
    + exists t. split; [now left|]. cbn. now rewrite Z.eqb_refl.
    + exists x. split; [cbn; right; apply in_app_iff; right; now left|]. change ([] ++ t :: l2' ++ [x]) with ((t :: l2') ++ [x]) in *. rewrite cnext_last by auto. reflexivity.
  - exists x. rewrite <- app_assoc in *. cbn [app] in *. split; [apply in_app_iff; right; now left|]. rewrite cnext_split by auto. reflexivity.
Qed.
Lemma fchain_skip f f' q q' : forall l, fchain f' l q -> (forall d, In d l -> f' d = q -> f d = q') -> (forall d, In d l -> In (f' d) l -> f d = f' d) -> fchain f l q'.
Proof.
  intros l C H1 H2. assert (G : forall m l0, l = m ++ l0 -> fchain f' l0 q -> fchain f l0 q').
  { intros m l0. revert m. induction l0 as [|x l0 IH]; intros m E C0; [exact I|]. cbn [fchain] in *. destruct C0 as [C1 C2]. split.
    - assert (Ix : In x l) by (rewrite E; apply in_app_iff; right; now left). destruct l0 as [|y l0]; cbn [hd] in *; [now apply H1|].
      rewrite H2; auto. rewrite C1, E. apply in_app_iff. right. right. now left.
    - apply (IH (m ++ [x])); [rewrite <- app_assoc; exact E|exact C2]. }
  apply (G [] l eq_refl C).
Qed.

Section Plan.
Variables (nb : Z -> Z) (rot : Z -> list Z) (vs : list Z).
Hypothesis Vs : NoDup vs.
Hypothesis Rn : forall x, NoDup (rot x).
Hypothesis Rv : forall x e, In e (rot x) -> In x vs.
Hypothesis Rt : forall x e, In e (rot x) -> nb (twin e) = x /\ In (twin e) (rot (nb e)).
Hypothesis Rl : forall x e, In e (rot x) -> nb e <> x.

Definition src (e : Z) : Z := nb (twin e).
Definition kept (es : list Z) (d : Z) : bool := inl d es || inl (twin d) es.
Definition rt (es : list Z) (x : Z) : list Z := filter (kept es) (rot x).
Definition phi (es : list Z) : Z -> Z := fstep nb (rt es).
Definition dart (es : list Z) (d : Z) : Prop := In d (rot (src d)) /\ kept es d = true.
Fixpoint okes (es : list Z) : Prop :=
  match es with [] => True | e :: l => In e (rot (src e)) /\ kept l e = false /\ okes l end.

Lemma kept_twin es d : kept es (twin d) = kept es d.
Proof. unfold kept. rewrite twin2. apply orb_comm. Qed.
Lemma in_rt es x d : In d (rt es x) <-> dart es d /\ src d = x.
Proof.
  unfold rt, dart, src. rewrite filter_In. split.
  - intros [H K]. destruct (Rt _ _ H) as [E _]. rewrite E. auto.
  - intros [[H K] E]. rewrite E in H. auto.
Qed.
Lemma src_twin d : src (twin d) = nb d.
Proof. unfold src. now rewrite twin2. Qed.
Lemma dart_twin es d : dart es d -> dart es (twin d).
Proof. intros [H K]. split; [|now rewrite kept_twin]. rewrite src_twin. apply (Rt _ _ H). Qed.
Lemma rt_nodup es x : NoDup (rt es x).
Proof. apply NoDup_filter, Rn. Qed.
Lemma phi_dart es d : dart es d -> dart es (phi es d) /\ src (phi es d) = nb d.
Proof.
  intros D. assert (I : In (phi es d) (rt es (nb d))).
  { unfold phi, fstep. apply cnext_in; [apply rt_nodup|]. apply in_rt. split; [now apply dart_twin|apply src_twin]. }
  now apply in_rt in I.
Qed.
Lemma dart_src es d : dart es d -> In (src d) vs.
Proof. intros [H _]. eauto. Qed.
Lemma dart_nb es d : dart es d -> In (nb d) vs.
Proof. intros D. rewrite <- src_twin. apply (dart_src es). now apply dart_twin. Qed.
Lemma dart_noloop es d : dart es d -> nb d <> src d.
Proof. intros [H _]. eauto. Qed.

Section Del.
Variables (es : list Z) (e : Z).
Hypothesis He : In e (rot (src e)).
Hypothesis Hk : kept es e = false.
Local Notation f' := (phi (e :: es)).
Local Notation f := (phi es).
Lemma del_keep d : kept (e :: es) d = (d =? e) || (d =? twin e) || kept es d.
Proof.
  unfold kept, inl. cbn [existsb]. replace (twin d =? e) with (d =? twin e); [lia|].
  destruct (Z.eqb_spec d (twin e)) as [->|Ne]; [now rewrite twin2, Z.eqb_refl|]. symmetry. apply Z.eqb_neq. intros <-. now rewrite twin2 in Ne.
Qed.
Lemma del_dart d : dart es d <-> dart (e :: es) d /\ d <> e /\ d <> twin e.
Proof.
  unfold dart. rewrite del_keep. split.
  - intros [H K]. split; [split; [auto|rewrite K; lia]|]. split; intros ->; [congruence|]. rewrite kept_twin in K. congruence.
  - intros ([H K] & N1 & N2). split; [auto|]. lia.
Qed.
Lemma del_e : dart (e :: es) e.
Proof. split; [auto|]. rewrite del_keep. lia. Qed.
Lemma del_ends : nb e <> src e.
Proof. eauto. Qed.
Lemma del_rt x : rt es x = filter (fun d => negb (d =? if x =? nb e then twin e else e)) (rt (e :: es) x).
Proof.
  unfold rt. pose proof (Rt x) as T. induction (rot x) as [|d l IH]; [reflexivity|]. cbn [filter]. rewrite del_keep, IH by (intros; apply T; now right).
  destruct (T d (or_introl eq_refl)) as [Ed _]. destruct (Z.eqb_spec d e) as [->|N1].
  - rewrite Hk. cbn [orb filter]. replace (x =? nb e) with false; [now rewrite Z.eqb_refl|]. symmetry. apply Z.eqb_neq. intros E. apply del_ends. rewrite <- E. unfold src. auto.
  - destruct (Z.eqb_spec d (twin e)) as [->|N2].
    + rewrite kept_twin, Hk. cbn [orb filter]. replace (x =? nb e) with true; [now rewrite Z.eqb_refl|]. symmetry. rewrite twin2 in Ed. lia.
    + cbn [orb]. destruct (kept es d); [|reflexivity]. cbn [filter]. replace (d =? (if x =? nb e then twin e else e)) with false; [reflexivity|]. destruct (x =? nb e); lia.
Qed.
Lemma del_phi d : dart es d -> f d = if f' d =? e then f' (twin e) else if f' d =? twin e then f' e else f' d.
Proof.
  intros D. pose proof (proj1 (del_dart d) D) as (D' & N1 & N2). pose proof (dart_twin _ _ D') as T'. pose proof (phi_dart _ _ D') as [P1 P2].
  assert (It : In (twin d) (rt (e :: es) (nb d))) by (apply in_rt; split; [auto|apply src_twin]).
  assert (N3 : twin d <> e /\ twin d <> twin e) by (split; [intros <-; now rewrite twin2 in N2|intros E; apply twin_eq_inj in E; congruence]).
  change (f d) with (cnext (rt es (nb d)) (twin d)). rewrite del_rt. change (f' d) with (cnext (rt (e :: es) (nb d)) (twin d)) in P2 |- *.
  destruct (Z.eqb_spec (nb d) (nb e)) as [E|E].
  - rewrite cnext_remove; [|apply rt_nodup|apply in_rt; split; [apply dart_twin, del_e|rewrite src_twin; congruence]|auto|tauto].
    destruct (Z.eqb_spec (cnext (rt (e :: es) (nb d)) (twin d)) e) as [Q|Q].
    + exfalso. apply del_ends. rewrite Q in P2. congruence.
    + change (f' e) with (cnext (rt (e :: es) (nb e)) (twin e)). rewrite E. reflexivity.
  - destruct (Z.eq_dec (nb d) (src e)) as [E2|E2].
    + rewrite cnext_remove; [|apply rt_nodup|apply in_rt; split; [apply del_e|congruence]|auto|tauto].
      destruct (Z.eqb_spec (cnext (rt (e :: es) (nb d)) (twin d)) e) as [Q|Q].
      * change (f' (twin e)) with (cnext (rt (e :: es) (nb (twin e))) (twin (twin e))). rewrite twin2. fold (src e). now rewrite E2.
      * destruct (Z.eqb_spec (cnext (rt (e :: es) (nb d)) (twin d)) (twin e)) as [Q2|Q2]; [|reflexivity].
        exfalso. rewrite Q2, src_twin in P2. congruence.
    + assert (Fi : filter (fun x => negb (x =? e)) (rt (e :: es) (nb d)) = rt (e :: es) (nb d)).
      { apply filter_same. intros x Hx. apply in_rt in Hx. destruct (Z.eqb_spec x e) as [->|]; [|reflexivity]. destruct Hx. congruence. }
      rewrite Fi. destruct (Z.eqb_spec (cnext (rt (e :: es) (nb d)) (twin d)) e) as [Q|Q]; [rewrite Q in P2; congruence|].
      destruct (Z.eqb_spec (cnext (rt (e :: es) (nb d)) (twin d)) (twin e)) as [Q2|Q2]; [|reflexivity]. exfalso. rewrite Q2, src_twin in P2. congruence.
Qed.
End Del.

(** ** Faces; the empty ones are those of isolated vertices *)
Record fsys (es : list Z) (FS : list (list Z)) : Prop := {
  fy_nodup : NoDup (concat FS);
  fy_arcs : forall d, In d (concat FS) <-> dart es d;
  fy_closed : forall l, In l FS -> l <> [] -> fclosed (phi es) l;
  fy_iso : cnt nilb FS = cnt (fun x => nilb (rt es x)) vs }.
Lemma fsys_perm es FS FS' : fsys es FS -> Permutation FS FS' -> fsys es FS'.
Proof.
  intros S E. pose proof (concat_perm _ _ E) as Ec. constructor.
  - eapply Permutation_NoDup; [exact Ec|apply S].
  - intros d. rewrite <- (fy_arcs _ _ S). split; apply Permutation_in; [now apply Permutation_sym|auto].
  - intros l Hl. apply S. eapply Permutation_in; [apply Permutation_sym, E|auto].
  - rewrite <- (cnt_perm _ _ _ E). apply S.
Qed.
Lemma fsys_turn es a b FS : fsys es ((a ++ b) :: FS) -> fsys es ((b ++ a) :: FS).
Proof.
  intros S. assert (Ec : Permutation (concat ((a ++ b) :: FS)) (concat ((b ++ a) :: FS))) by (cbn; apply Permutation_app_tail, Permutation_app_comm). constructor.
  - eapply Permutation_NoDup; [exact Ec|apply S].
  - intros d. rewrite <- (fy_arcs _ _ S). split; apply Permutation_in; [now apply Permutation_sym|auto].
  - intros l [<-|Hl] Nl; [apply fclosed_rot|]; apply S; auto; [now left| |now right]. intros Q. apply app_eq_nil in Q. destruct Q. subst. now apply Nl.
  - rewrite <- (fy_iso _ _ S), !cnt_cons. f_equal. destruct a, b; reflexivity.
Qed.
(** A face with a given arc first. *)
Lemma fsys_front es FS d : fsys es FS -> dart es d -> exists l FS', fsys es ((d :: l) :: FS') /\ length FS = S (length FS') /\
  forall O, In O FS -> In O FS' \/ forall x, In x O -> In x (d :: l).
Proof.
  intros S D. apply (fy_arcs _ _ S) in D. apply in_concat in D. destruct D as (l & Hl & Hd). apply in_split in Hl as (F1 & F2 & ->). apply in_split in Hd as (a & b & ->).
  exists (b ++ a), (F1 ++ F2). split.
  - change (d :: b ++ a) with ((d :: b) ++ a). apply fsys_turn. eapply fsys_perm; [exact S|]. apply Permutation_sym, Permutation_middle.
  - split; [rewrite !app_length; cbn [length]; lia|]. intros O HO. rewrite in_app_iff in *. destruct HO as [HO|[<-|HO]]; auto. right. intros x Hx. cbn [In]. rewrite in_app_iff in *. cbn [In] in Hx. tauto.
Qed.

Definition same_side (es : list Z) (x y : Z) : Prop := forall r : Z -> Z, (forall d, dart es d -> r (src d) = r (nb d)) -> r x = r y.

Lemma fchain_ends es (r : Z -> Z) q : (forall d, dart es d -> r (src d) = r (nb d)) -> forall l d, fchain (phi es) (d :: l) q -> (forall x, In x (d :: l) -> dart es x) -> r (src d) = r (nb (last (d :: l) NIL)).
Proof.
  intros Hr. induction l as [|y l IH]; intros d C Hd; [cbn; apply Hr, Hd; now left|]. destruct C as [C1 C2]. cbn [hd] in C1.
  rewrite last_cons_ne by discriminate. rewrite <- (IH y C2) by (intros; apply Hd; now right). rewrite <- C1. destruct (phi_dart es d (Hd d (or_introl eq_refl))) as [_ ->]. apply Hr, Hd. now left.
Qed.

Lemma face_const es (r : Z -> Z) q : (forall d, dart es d -> r (src d) = r (nb d)) -> forall l, fchain (phi es) l q -> (forall x, In x l -> dart es x) -> forall d, In d l -> r (src d) = r (src (hd NIL l)).
Proof.
  intros Hr. induction l as [|y l IH]; intros C Hd d Id; [destruct Id|]. destruct Id as [<-|Id]; [reflexivity|]. destruct l as [|z l]; [destruct Id|]. destruct C as [C1 C2]. cbn [hd] in *.
  rewrite (IH C2) by (auto; intros; apply Hd; now right). rewrite <- C1. destruct (phi_dart es y (Hd y (or_introl eq_refl))) as [_ ->]. symmetry. apply Hr, Hd. now left.
Qed.
(** Every face is still there or is within the arcs of L and the deleted edge. *)
Definition loses (FS FS' : list (list Z)) (e : Z) (L : list Z) : Prop := forall O, In O FS -> In O FS' \/ forall d, In d O -> d = e \/ d = twin e \/ In d L.
Lemma del_ok es e FS : In e (rot (src e)) -> kept es e = false -> fsys (e :: es) FS ->
  exists FS', fsys es FS' /\
    ((length FS' = S (length FS) /\ exists A B, In A FS' /\ In B FS' /\ loses FS FS' e (A ++ B) /\
        (rt es (nb e) <> [] -> exists d, In d A /\ src d = nb e) /\ (rt es (src e) <> [] -> exists d, In d B /\ src d = src e) /\
        (forall d, In d A -> same_side es (nb e) (src d)) /\ forall d, In d B -> same_side es (src e) (src d)) \/
     (S (length FS') = length FS /\ same_side es (src e) (nb e) /\ exists M, In M FS' /\ loses FS FS' e M /\ (exists d, In d M /\ src d = nb e) /\ exists d, In d M /\ src d = src e)).
Proof.
  intros He Hk S. set (t := twin e). set (f' := phi (e :: es)). set (f := phi es).
  pose proof (del_e es e He Hk) as De. pose proof (dart_twin _ _ De) as Dt. fold t in Dt. assert (Nt : t <> e) by apply twin_ne.
  destruct (phi_dart _ _ De) as [Pe Se]. destruct (phi_dart _ _ Dt) as [Pt St]. fold f' in Pe, Se, Pt, St. change (nb t) with (src e) in St.
  pose proof (del_ends e He) as Ends.
  assert (Ut : twin t = e) by apply twin2.
  assert (Ft : f' t = cnext (rt (e :: es) (src e)) e) by (unfold f', phi, fstep; rewrite Ut; reflexivity).
  assert (Fe : f' e = cnext (rt (e :: es) (nb e)) t) by reflexivity.
  assert (It : In t (rt (e :: es) (nb e))) by (apply in_rt; split; [auto|apply src_twin]).
  assert (Ie : In e (rt (e :: es) (src e))) by (apply in_rt; auto).
  assert (Ivs : In (nb e) vs /\ In (src e) vs) by (split; [eapply dart_nb|eapply dart_src]; eauto).
  (* the counts of isolated vertices *)
  assert (Iso : cnt (fun x => nilb (rt es x)) vs = cnt (fun x => nilb (rt (e :: es) x)) vs + (if nilb (rt es (nb e)) then 1 else 0) + (if nilb (rt es (src e)) then 1 else 0)).
  { set (p := fun x => if x =? nb e then nilb (rt es x) else nilb (rt (e :: es) x)).
    rewrite (cnt_point p (fun x => nilb (rt es x)) vs (src e)); [|auto|tauto|].
    2:{ intros x Hx N. unfold p. destruct (Z.eqb_spec x (nb e)) as [|N2]; [reflexivity|]. rewrite (del_rt es e He Hk). f_equal.
        apply filter_same. intros d Hd. apply in_rt in Hd. destruct (Z.eqb_spec x (nb e)); [congruence|]. destruct (Z.eqb_spec d e) as [->|]; [|reflexivity]. destruct Hd. congruence. }
    rewrite (cnt_point (fun x => nilb (rt (e :: es) x)) p vs (nb e)); [|auto|tauto|].
    2:{ intros x Hx N. unfold p. destruct (Z.eqb_spec x (nb e)); [congruence|reflexivity]. }
    unfold p. rewrite Z.eqb_refl. destruct (Z.eqb_spec (src e) (nb e)); [congruence|].
    replace (nilb (rt (e :: es) (nb e))) with false by (symmetry; apply nilb_false; intros Q; rewrite Q in It; destruct It).
    replace (nilb (rt (e :: es) (src e))) with false by (symmetry; apply nilb_false; intros Q; rewrite Q in Ie; destruct Ie). lia. }
  assert (Nb0 : rt es (nb e) = [] <-> f' e = t).
  { rewrite Fe, (del_rt es e He Hk (nb e)), Z.eqb_refl. fold t. split.
    - intros Q. assert (A : forall d, In d (rt (e :: es) (nb e)) -> d = t).
      { intros d Hd. destruct (Z.eqb_spec d t) as [|N]; [auto|]. exfalso. assert (In d (filter (fun d => negb (d =? t)) (rt (e :: es) (nb e)))) as X by (apply filter_In; split; [auto|lia]). rewrite Q in X. destruct X. }
      apply A. now apply cnext_in; [apply rt_nodup|].
    - intros Q. rewrite (cnext_single _ _ (rt_nodup _ _) It Q). cbn. now rewrite Z.eqb_refl. }
  assert (Sr0 : rt es (src e) = [] <-> f' t = e).
  { rewrite Ft, (del_rt es e He Hk (src e)). replace (src e =? nb e) with false by lia. split.
    - intros Q. assert (A : forall d, In d (rt (e :: es) (src e)) -> d = e).
      { intros d Hd. destruct (Z.eqb_spec d e) as [|N]; [auto|]. exfalso. assert (In d (filter (fun d => negb (d =? e)) (rt (e :: es) (src e)))) as X by (apply filter_In; split; [auto|lia]). rewrite Q in X. destruct X. }
      apply A. now apply cnext_in; [apply rt_nodup|].
    - intros Q. rewrite (cnext_single _ _ (rt_nodup _ _) Ie Q). cbn. now rewrite Z.eqb_refl. }
  destruct (fsys_front _ _ _ S De) as (M & rest & S1 & L1 & Keep).
  assert (De' : In t (concat ((e :: M) :: rest))) by (apply (fy_arcs _ _ S1); auto).
  pose proof (fy_nodup _ _ S1) as Nd. cbn [concat app] in De', Nd. destruct De' as [De'|De']; [congruence|]. apply in_app_iff in De'.
  pose proof (fy_closed _ _ S1 (e :: M) (or_introl eq_refl) ltac:(discriminate)) as CM. destruct CM as [_ CM]. cbn [hd] in CM. fold f' in CM.
  pose proof (NoDup_cons_iff e (M ++ concat rest)) as [Q _]. destruct (Q Nd) as [Ne NdM]. clear Q.
  assert (Hrest : forall l x, In l rest -> In x l -> In x (concat rest)) by (intros l x H1 H2; apply in_concat; eauto).
  assert (Dph : forall d, dart es d -> f' d <> e -> f' d <> t -> f d = f' d).
  { intros d D N1 N2. unfold f. rewrite (del_phi es e He Hk d D). fold f' t. destruct (Z.eqb_spec (f' d) e); [congruence|]. destruct (Z.eqb_spec (f' d) t); congruence. }
  assert (Dpe : forall d, dart es d -> f' d = e -> f d = f' t).
  { intros d D E. unfold f. rewrite (del_phi es e He Hk d D). fold f' t. rewrite E, Z.eqb_refl. reflexivity. }
  assert (Dpt : forall d, dart es d -> f' d = t -> f d = f' e).
  { intros d D E. unfold f. rewrite (del_phi es e He Hk d D). fold f' t. rewrite E, Z.eqb_refl. destruct (Z.eqb_spec t e); congruence. }
  assert (Dd : forall d, dart (e :: es) d -> d <> e -> d <> t -> dart es d) by (intros d D N1 N2; apply (proj2 (del_dart es e He Hk d)); auto).
  assert (Other : forall l F, In l F -> l <> [] -> fclosed f' l -> ~ In e l -> ~ In t l -> (forall d, In d l -> dart (e :: es) d) -> fclosed f l).
  { intros l F _ Nl C N1 N2 Dl. destruct C as [_ C]. split; [exact Nl|]. apply (fchain_skip f f' (hd NIL l) (hd NIL l)); auto.
    - intros d Hd E. assert (Hh : In (hd NIL l) l) by (destruct l; [congruence|now left]). rewrite <- E. apply Dph; [apply Dd; [auto| |]; intros ->; contradiction| |]; rewrite E; intros Q; rewrite Q in Hh; contradiction.
    - intros d Hd Hd'. apply Dph; [apply Dd; [auto| |]; intros ->; contradiction| |]; intros Q; rewrite Q in Hd'; contradiction. }
  destruct De' as [HM|HR].
  - (* both sides on one face *)
    apply in_split in HM as (A & B & ->). exists (A :: B :: rest).
    match goal with |- ?P /\ _ => assert (SS : P) end.
    2:{ split; [exact SS|]. left. split; [cbn [length]; lia|]. exists A, B. split; [now left|]. split; [right; now left|].
        assert (CA : forall l, In l (A :: B :: rest) -> forall d, In d l -> dart es d) by (intros l Hl d Hd; apply (fy_arcs _ _ SS), in_concat; eauto).
        cbn [fchain] in CM. destruct CM as [C1 C2]. apply fchain_app in C2. destruct C2 as [_ [CB1 _]].
        split; [|split; [|split; [|split]]].
        - intros O HO. destruct (Keep O HO) as [K|K]; [left; right; now right|]. right. intros d Hd. specialize (K d Hd). cbn [In] in K. rewrite in_app_iff in *. cbn [In] in K. fold t. destruct K as [K|[K|[K|K]]]; auto.
        - intros N0. destruct A as [|a A]; [elim N0; apply Nb0; exact C1|]. cbn [hd app] in C1. exists a. split; [now left|]. now rewrite <- C1.
        - intros N0. destruct B as [|b B]; [elim N0; apply Sr0; exact CB1|]. cbn [hd] in CB1. exists b. split; [now left|]. now rewrite <- CB1.
        - intros d Hd r Hr. assert (NA : A <> []) by (intros E; rewrite E in Hd; destruct Hd). destruct (fy_closed _ _ SS A (or_introl eq_refl) NA) as [_ Ch].
          rewrite (face_const es r _ Hr A Ch (CA A (or_introl eq_refl)) d Hd). destruct A as [|a A]; [congruence|]. cbn [hd app] in *. now rewrite <- C1, Se.
        - intros d Hd r Hr. assert (NB : B <> []) by (intros E; rewrite E in Hd; destruct Hd). destruct (fy_closed _ _ SS B (or_intror (or_introl eq_refl)) NB) as [_ Ch].
          rewrite (face_const es r _ Hr B Ch (CA B (or_intror (or_introl eq_refl))) d Hd). destruct B as [|b B]; [congruence|]. cbn [hd] in *. now rewrite <- CB1, St. }
    rewrite <- app_assoc in NdM. cbn [app] in NdM. pose proof (proj1 (NoDup_mid _ _ _) NdM) as [NdC NtC].
    assert (NeC : ~ In e (A ++ B ++ concat rest)) by (intros Q; apply Ne; rewrite !in_app_iff in *; cbn [In]; tauto).
    assert (Dm : forall d, In d (A ++ B ++ concat rest) <-> dart es d).
    { intros d. rewrite (del_dart es e He Hk d), <- (fy_arcs _ _ S1 d). cbn [concat app]. fold t. split.
      - intros Hd. split; [rewrite !in_app_iff in *; cbn [In]; rewrite ?in_app_iff; cbn [In]; tauto|]. split; intros ->; contradiction.
      - intros (Hd & N1 & N2). cbn [In] in Hd. rewrite !in_app_iff in *. cbn [In] in Hd. destruct Hd as [|[[|[|]]|]]; try congruence; tauto. }
    cbn [fchain] in CM. destruct CM as [C1 C2]. apply fchain_app in C2. destruct C2 as [CA CB]. cbn [hd fchain] in CA, CB. destruct CB as [CB1 CB2].
    constructor.
    + exact NdC.
    + exact Dm.
    + assert (DA : forall d, In d A -> dart es d) by (intros; apply Dm; rewrite !in_app_iff; tauto).
      assert (DB : forall d, In d B -> dart es d) by (intros; apply Dm; rewrite !in_app_iff; tauto).
      intros l [<-|[<-|Hl]] Nl.
      * split; [exact Nl|]. fold f. apply (fchain_skip f f' t (hd NIL A)); auto.
        { intros d Hd E. rewrite (Dpt d (DA _ Hd) E), C1. destruct A; [congruence|reflexivity]. }
        { intros d Hd Hd'. apply Dph; [auto| |]; intros Q; rewrite Q in Hd'; rewrite !in_app_iff in *; tauto. }
      * split; [exact Nl|]. fold f. apply (fchain_skip f f' e (hd NIL B)); auto.
        { intros d Hd E. rewrite (Dpe d (DB _ Hd) E), CB1. destruct B; [congruence|reflexivity]. }
        { intros d Hd Hd'. apply Dph; [auto| |]; intros Q; rewrite Q in Hd'; rewrite !in_app_iff in *; tauto. }
      * apply (Other l rest Hl Nl); [apply S1; auto; now right| | |].
        { intros Q. apply NeC. rewrite !in_app_iff. right. right. eauto. }
        { intros Q. apply NtC. rewrite !in_app_iff. right. right. eauto. }
        { intros d Hd. apply (fy_arcs _ _ S1). cbn [concat]. apply in_app_iff. right. eauto. }
    + rewrite Iso, <- (fy_iso _ _ S1), !cnt_cons. cbn [nilb].
      assert (EA : nilb A = nilb (rt es (nb e))).
      { destruct A as [|a A]; symmetry; cbn [nilb]; [apply nilb_true, Nb0; exact C1|]. apply nilb_false. intros Q. apply Nb0 in Q. cbn in C1. rewrite Q in C1. subst a. apply NtC. now left. }
      assert (EB : nilb B = nilb (rt es (src e))).
      { destruct B as [|b B]; symmetry; cbn [nilb]; [apply nilb_true, Sr0; exact CB1|]. apply nilb_false. intros Q. apply Sr0 in Q. cbn in CB1. rewrite Q in CB1. subst b. apply NeC. rewrite !in_app_iff. right. left. now left. }
      rewrite EA, EB. lia.
  - (* the two sides on different faces *)
    apply in_concat in HR. destruct HR as (l2 & Hl2 & Ht2). apply in_split in Hl2 as (R1 & R2 & ->). apply in_split in Ht2 as (a2 & b2 & ->).
    assert (S2 : fsys (e :: es) ((t :: b2 ++ a2) :: (e :: M) :: R1 ++ R2)).
    { change (t :: b2 ++ a2) with ((t :: b2) ++ a2). apply fsys_turn. eapply fsys_perm; [exact S1|].
      etransitivity; [|apply perm_swap]. apply perm_skip. apply Permutation_sym, Permutation_middle. }
    assert (Keep2 : forall O, In O FS -> In O (R1 ++ R2) \/ forall d, In d O -> d = e \/ d = t \/ In d (M ++ b2 ++ a2)).
    { intros O HO. destruct (Keep O HO) as [K|K].
      - rewrite in_app_iff in *. cbn [In] in K. destruct K as [K|[<-|K]]; auto. right. intros d Hd. rewrite !in_app_iff in *. cbn [In] in Hd. destruct Hd as [Hd|[Hd|Hd]]; auto.
      - right. intros d Hd. specialize (K d Hd). cbn [In] in K. rewrite in_app_iff. destruct K; auto. }
    set (B := b2 ++ a2) in *. set (R := R1 ++ R2) in *.
    assert (L2 : length FS = Datatypes.S (Datatypes.S (length R))) by (rewrite L1; unfold R; rewrite !app_length; cbn [length]; lia).
    clear NdM Hrest L1 S S1 Keep. pose proof (fy_closed _ _ S2 (t :: B) (or_introl eq_refl) ltac:(discriminate)) as CB. destruct CB as [_ CB]. cbn [hd] in CB. fold f' in CB.
    exists ((M ++ B) :: R). pose proof (fy_nodup _ _ S2) as Nd2. cbn [concat app] in Nd2. apply NoDup_cons_iff in Nd2. destruct Nd2 as [Nt2 Nd2].
    apply (proj1 (NoDup_mid _ _ _)) in Nd2. destruct Nd2 as [Nd2 Ne2].
    assert (NdC : NoDup (M ++ B ++ concat R)) by (eapply Permutation_NoDup; [|exact Nd2]; apply Permutation_app_swap_app).
    assert (NeC : ~ In e (M ++ B ++ concat R)) by (intros Q; apply Ne2; rewrite !in_app_iff in *; tauto).
    assert (NtC : ~ In t (M ++ B ++ concat R)) by (intros Q; apply Nt2; rewrite !in_app_iff in *; cbn [In]; rewrite ?in_app_iff; tauto).
    assert (Dm : forall d, In d (M ++ B ++ concat R) <-> dart es d).
    { intros d. rewrite (del_dart es e He Hk d), <- (fy_arcs _ _ S2 d). cbn [concat app]. fold t. split.
      - intros Hd. split; [cbn [In]; rewrite !in_app_iff in *; cbn [In]; rewrite ?in_app_iff; tauto|]. split; intros ->; contradiction.
      - intros (Hd & N1 & N2). cbn [In] in Hd. rewrite !in_app_iff in *. cbn [In] in Hd. rewrite ?in_app_iff in Hd. destruct Hd as [|[|[|[|]]]]; try congruence; tauto. }
    cbn [fchain] in CM, CB. destruct CM as [M1 M2], CB as [B1 B2].
    assert (NM : M <> []). { intros ->. cbn in M1. rewrite M1 in Se. congruence. }
    assert (NB : B <> []). { intros Q. rewrite Q in B1. cbn in B1. rewrite B1 in St. unfold t in St. rewrite src_twin in St. congruence. }
    assert (DM : forall d, In d M -> dart es d) by (intros; apply Dm; rewrite !in_app_iff; tauto).
    assert (DB : forall d, In d B -> dart es d) by (intros; apply Dm; rewrite !in_app_iff; tauto).
    assert (FM : fchain f M (hd NIL B)).
    { apply (fchain_skip f f' e); auto.
      - intros d Hd E. rewrite (Dpe d (DM _ Hd) E), B1. destruct B; [congruence|reflexivity].
      - intros d Hd Hd'. apply Dph; [auto| |]; intros Q; rewrite Q in Hd'; rewrite !in_app_iff in *; tauto. }
    assert (FB : fchain f B (hd NIL M)).
    { apply (fchain_skip f f' t); auto.
      - intros d Hd E. rewrite (Dpt d (DB _ Hd) E), M1. destruct M; [congruence|reflexivity].
      - intros d Hd Hd'. apply Dph; [auto| |]; intros Q; rewrite Q in Hd'; rewrite !in_app_iff in *; tauto. }
    split; [constructor|].
    + cbn [concat]. rewrite <- app_assoc. exact NdC.
    + intros d. cbn [concat]. rewrite <- app_assoc. apply Dm.
    + intros l [<-|Hl] Nl.
      * split; [exact Nl|]. fold f. apply fchain_app. replace (hd NIL (M ++ B)) with (hd NIL M) by (destruct M; [congruence|reflexivity]).
        split; [|exact FB]. destruct B; [congruence|exact FM].
      * apply (Other l R Hl Nl); [apply S2; auto; right; now right| | |].
        { intros Q. apply NeC. rewrite !in_app_iff. right. right. apply in_concat. eauto. }
        { intros Q. apply NtC. rewrite !in_app_iff. right. right. apply in_concat. eauto. }
        { intros d Hd. apply (fy_arcs _ _ S2). cbn [concat]. rewrite !in_app_iff. right. right. apply in_concat. eauto. }
    + rewrite Iso, <- (fy_iso _ _ S2), !cnt_cons. cbn [nilb].
      assert (N1 : nilb (rt es (nb e)) = false).
      { apply nilb_false. intros Q. apply Nb0 in Q. destruct M as [|m M]; [congruence|]. cbn in M1. rewrite Q in M1. subst m. apply NtC. now left. }
      assert (N2 : nilb (rt es (src e)) = false).
      { apply nilb_false. intros Q. apply Sr0 in Q. destruct B as [|m B']; [congruence|]. cbn in B1. rewrite Q in B1. subst m. apply NeC. apply in_app_iff. right. now left. }
      rewrite N1, N2. replace (nilb (M ++ B)) with false by (destruct M; [congruence|reflexivity]). lia.
    + right. split; [cbn [length]; lia|]. split.
      2:{ exists (M ++ B). split; [now left|]. split; [intros O HO; destruct (Keep2 O HO) as [K|K]; [left; now right|right; exact K]|]. split.
          - exists (f' e). rewrite M1. split; [apply in_app_iff; left; now apply hd_in|]. now rewrite <- M1.
          - exists (f' t). rewrite B1. split; [apply in_app_iff; right; now apply hd_in|]. now rewrite <- B1. }
      intros r Hr. destruct M as [|m M]; [congruence|]. cbn [hd] in M1, FM.
      pose proof (fchain_ends es r _ Hr M m FM DM) as E1. rewrite M1 in Se. rewrite Se in E1. rewrite E1.
      pose proof (fchain_last _ _ _ M2 NM) as E2. assert (Dl : dart (e :: es) (last (m :: M) NIL)).
      { apply (fy_arcs _ _ S2). cbn [concat]. rewrite !in_app_iff. right. left. right. apply last_in. discriminate. }
      destruct (phi_dart _ _ Dl) as [_ E3]. fold f' in E3. rewrite E2 in E3. now rewrite E3.
Qed.

(** ** Components, by adding one edge at a time *)
Fixpoint crep (es : list Z) (x : Z) : Z :=
  match es with [] => x | e :: l => if crep l x =? crep l (nb e) then crep l (src e) else crep l x end.
Definition comps (es : list Z) : Z := cnt (fun x => crep es x =? x) vs.
Lemma okes_cons e l : okes (e :: l) -> okes l.
Proof. intros H. apply H. Qed.
Lemma okes_app a b : okes (a ++ b) -> okes b.
Proof. induction a as [|e a IH]; [auto|]. intros H. apply IH. apply (okes_cons _ _ H). Qed.
Lemma okes_dart es d : okes es -> In d es -> dart es d.
Proof.
  intros O Hd. split.
  - revert O Hd. induction es as [|e l IH]; intros O Hd; [destruct Hd|]. destruct O as (O1 & O2 & O3). destruct Hd as [<-|Hd]; auto.
  - unfold kept. apply orb_true_iff. left. now apply inl_true.
Qed.
Lemma crep_in es x : okes es -> In x vs -> In (crep es x) vs.
Proof.
  revert x. induction es as [|e l IH]; intros x O Hx; [auto|]. cbn [crep]. destruct O as (O1 & O2 & O3).
  destruct (crep l x =? crep l (nb e)); apply IH; auto. now apply (dart_src (e :: l)), del_e.
Qed.
Lemma crep_idem es x : crep es (crep es x) = crep es x.
Proof.
  revert x. induction es as [|e l IH]; intros x; [auto|]. cbn [crep]. destruct (Z.eqb_spec (crep l x) (crep l (nb e))) as [E|E].
  - rewrite IH. destruct (_ =? _); reflexivity.
  - rewrite IH. destruct (Z.eqb_spec (crep l x) (crep l (nb e))); [contradiction|reflexivity].
Qed.
Lemma crep_dart es d : okes es -> dart es d -> crep es (src d) = crep es (nb d).
Proof.
  revert d. induction es as [|e l IH]; intros d O D; [destruct D as [_ D]; discriminate D|]. destruct O as (O1 & O2 & O3).
  assert (Se : crep (e :: l) (src e) = crep l (src e)) by (cbn [crep]; destruct (_ =? _); reflexivity).
  assert (Ne : crep (e :: l) (nb e) = crep l (src e)) by (cbn [crep]; now rewrite Z.eqb_refl).
  destruct (Z.eq_dec d e) as [->|N1]; [congruence|]. destruct (Z.eq_dec d (twin e)) as [->|N2].
  - rewrite src_twin. change (nb (twin e)) with (src e). congruence.
  - assert (D' : dart l d) by (apply (proj2 (del_dart l e O1 O2 d)); auto). cbn [crep]. rewrite (IH d O3 D'). reflexivity.
Qed.
Lemma comps_same e l : okes (e :: l) -> crep l (src e) = crep l (nb e) -> comps (e :: l) = comps l.
Proof.
  intros O E. unfold comps. apply cnt_ext. intros x _. cbn [crep]. destruct (Z.eqb_spec (crep l x) (crep l (nb e))); congruence.
Qed.
Lemma comps_less e l : okes (e :: l) -> crep l (src e) <> crep l (nb e) -> comps (e :: l) = comps l - 1.
Proof.
  intros O E. unfold comps. destruct O as (O1 & O2 & O3). pose proof (del_e l e O1 O2) as De.
  rewrite (cnt_point (fun x => crep l x =? x) (fun x => crep (e :: l) x =? x) vs (crep l (nb e))).
  - rewrite crep_idem, Z.eqb_refl. cbn [crep]. rewrite crep_idem, Z.eqb_refl. destruct (Z.eqb_spec (crep l (src e)) (crep l (nb e))); lia.
  - exact Vs.
  - apply crep_in; auto. eapply dart_nb; eauto.
  - intros x Hx N. cbn [crep]. destruct (Z.eqb_spec (crep l x) (crep l (nb e))) as [Q|Q]; [|reflexivity].
    destruct (Z.eqb_spec (crep l (src e)) x) as [Q2|Q2].
    + exfalso. apply E. rewrite <- Q, <- Q2. symmetry. apply crep_idem.
    + destruct (Z.eqb_spec (crep l x) x); [congruence|reflexivity].
Qed.

Definition defect (es : list Z) (FS : list (list Z)) : Z := 2 * comps es + Z.of_nat (length es) - Z.of_nat (length FS).
Lemma del_defect e es FS : okes (e :: es) -> fsys (e :: es) FS -> exists FS', fsys es FS' /\ defect es FS' <= defect (e :: es) FS.
Proof.
  intros O S. pose proof O as (O1 & O2 & O3). destruct (del_ok es e FS O1 O2 S) as (FS' & S' & [[L _]|[L [Q _]]]); exists FS'; split; auto; unfold defect; cbn [length].
  - destruct (Z.eq_dec (crep es (src e)) (crep es (nb e))) as [E|E]; [rewrite (comps_same e es O E)|rewrite (comps_less e es O E)]; lia.
  - rewrite (comps_same e es O); [lia|]. apply Q. intros d D. now apply crep_dart.
Qed.
Lemma defect_nil FS : fsys [] FS -> defect [] FS = Z.of_nat (length vs).
Proof.
  intros S. unfold defect. assert (A : forall l, In l FS -> nilb l = true).
  { intros [|d l] Hl; [reflexivity|]. exfalso. assert (D : dart [] d) by (apply (fy_arcs _ _ S), in_concat; exists (d :: l); split; [auto|now left]). destruct D as [_ D]. discriminate D. }
  pose proof (fy_iso _ _ S) as I. rewrite (cnt_all nilb FS A) in I.
  rewrite cnt_all in I; [|intros x _; apply nilb_true; unfold rt; induction (rot x); auto].
  unfold comps. rewrite cnt_all by (intros; apply Z.eqb_refl). cbn [length]. lia.
Qed.
Definition planar (es : list Z) : Prop := exists FS, fsys es FS /\ defect es FS = Z.of_nat (length vs).
Lemma fsys_below H FS : okes H -> fsys H FS -> Z.of_nat (length vs) <= defect H FS.
Proof.
  revert FS. induction H as [|e H IH]; intros FS O S; [rewrite (defect_nil _ S); lia|].
  destruct (del_defect e H FS O S) as (FS' & S' & L). pose proof (IH FS' (okes_cons _ _ O) S'). lia.
Qed.
Theorem planar_sub es H : okes (es ++ H) -> planar (es ++ H) -> planar H.
Proof.
  induction es as [|e es IH]; intros O (FS & S & E); [exists FS; auto|]. cbn [app] in *.
  destruct (del_defect _ _ _ O S) as (FS' & S' & L). pose proof (fsys_below _ _ (okes_cons _ _ O) S').
  apply IH; [apply (okes_cons _ _ O)|]. exists FS'. split; [auto|lia].
Qed.

(** *** Faces that meet all the vertices of their component *)
Definition outw (es : list Z) (FS : list (list Z)) : Prop :=
  forall x, In x vs -> rt es x <> [] -> exists O, In O FS /\ forall y, In y vs -> rt es y <> [] -> crep es y = crep es x -> exists d, In d O /\ src d = y.
Definition outpl (es : list Z) : Prop := exists FS, fsys es FS /\ defect es FS = Z.of_nat (length vs) /\ outw es FS.
Lemma crep_more e es x y : crep es x = crep es y -> crep (e :: es) x = crep (e :: es) y.
Proof. intros E. cbn [crep]. now rewrite E. Qed.
Lemma rt_more e es x : In e (rot (src e)) -> kept es e = false -> rt es x <> [] -> rt (e :: es) x <> [].
Proof.
  intros He Hk N E. destruct (rt es x) as [|d l] eqn:Q; [congruence|]. assert (Hd : In d (rt es x)) by (rewrite Q; now left). apply in_rt in Hd. destruct Hd as [D S].
  apply (del_dart es e He Hk) in D. assert (I : In d (rt (e :: es) x)) by (apply in_rt; tauto). rewrite E in I. destruct I.
Qed.
Lemma del_out e es : okes (e :: es) -> outpl (e :: es) -> outpl es.
Proof.
  intros O (FS & S & Df & W). pose proof O as (O1 & O2 & O3). pose proof (fun d (D : dart es d) => crep_dart es d O3 D) as Cd.
  destruct (del_ok es e FS O1 O2 S) as (FS' & S' & [[L (A & B & IA & IB & Lo & HA & HB & CA & CB)]|[L [Q (M & IM & Lo & HM1 & HM2)]]]); exists FS'; (split; [exact S'|]).
  - pose proof (fsys_below es FS' O3 S') as Lb. assert (Ne : crep es (src e) <> crep es (nb e)).
    { intros E. unfold defect in *. rewrite (comps_same e es O E) in Df. cbn [length] in *. lia. }
    split; [unfold defect in *; rewrite (comps_less e es O Ne) in Df; cbn [length] in *; lia|].
    intros x Hx Nx. destruct (W x Hx (rt_more e es x O1 O2 Nx)) as (F & IF & HF). destruct (Lo F IF) as [K|K].
    { exists F. split; [exact K|]. intros y Hy Ny Ey. apply HF; auto; [now apply rt_more|now apply crep_more]. }
    assert (Wh : forall y d, In d F -> src d = y -> y = src e \/ y = nb e \/ (exists d', In d' A /\ src d' = y) \/ (exists d', In d' B /\ src d' = y)).
    { intros y d Hd <-. destruct (K d Hd) as [->|[->|I]]; [auto|rewrite src_twin; auto|]. apply in_app_iff in I. right. right. destruct I as [I|I]; [left|right]; exists d; auto. }
    assert (CA' : forall d, In d A -> crep es (src d) = crep es (nb e)) by (intros d Hd; symmetry; apply (CA d Hd (crep es)); exact Cd).
    assert (CB' : forall d, In d B -> crep es (src d) = crep es (src e)) by (intros d Hd; symmetry; apply (CB d Hd (crep es)); exact Cd).
    assert (Cx : crep es x = crep es (nb e) \/ crep es x = crep es (src e)).
    { destruct (HF x Hx (rt_more e es x O1 O2 Nx) eq_refl) as (d & Hd & Ed). destruct (Wh x d Hd Ed) as [->|[->|[(d' & I1 & <-)|(d' & I1 & <-)]]]; auto. }
    destruct Cx as [Cx|Cx].
    + exists A. split; [exact IA|]. intros y Hy Ny Ey. rewrite Cx in Ey. destruct (HF y Hy (rt_more e es y O1 O2 Ny) ltac:(apply crep_more; congruence)) as (d & Hd & Ed).
      destruct (Wh y d Hd Ed) as [->|[->|[(d' & I1 & E')|(d' & I1 & <-)]]]; [congruence|now apply HA|eauto|rewrite CB' in Ey by auto; congruence].
    + exists B. split; [exact IB|]. intros y Hy Ny Ey. rewrite Cx in Ey. destruct (HF y Hy (rt_more e es y O1 O2 Ny) ltac:(apply crep_more; congruence)) as (d & Hd & Ed).
      destruct (Wh y d Hd Ed) as [->|[->|[(d' & I1 & <-)|(d' & I1 & E')]]]; [now apply HB|congruence|rewrite CA' in Ey by auto; congruence|eauto].
  - split; [unfold defect in *; rewrite (comps_same e es O) in Df by (apply Q; exact Cd); cbn [length] in *; lia|].
    intros x Hx Nx. destruct (W x Hx (rt_more e es x O1 O2 Nx)) as (F & IF & HF). destruct (Lo F IF) as [K|K].
    { exists F. split; [exact K|]. intros y Hy Ny Ey. apply HF; auto; [now apply rt_more|now apply crep_more]. }
    exists M. split; [exact IM|]. intros y Hy Ny Ey. destruct (HF y Hy (rt_more e es y O1 O2 Ny) ltac:(apply crep_more; congruence)) as (d & Hd & Ed).
    destruct (K d Hd) as [->|[->|I]]; [now rewrite <- Ed|rewrite src_twin in Ed; now rewrite <- Ed|eauto].
Qed.
Theorem out_sub es H : okes (es ++ H) -> outpl (es ++ H) -> outpl H.
Proof. induction es as [|e es IH]; intros O Q; [auto|]. cbn [app] in *. apply IH; [apply (okes_cons _ _ O)|]. now apply (del_out e). Qed.

(** A list of edges extends to one of all the edges. *)
Definition covers (es : list Z) : Prop := forall d, In d (rot (src d)) -> kept es d = true.
Definition full_planar : Prop := forall es, okes es -> covers es -> planar es.
Lemma kept_app a b d : kept (a ++ b) d = kept a d || kept b d.
Proof. unfold kept, inl. rewrite !existsb_app. lia. Qed.
Lemma extend D : forall H, okes H -> (forall d, In d D -> In d (rot (src d))) -> exists es, okes (es ++ H) /\ forall d, In d D -> kept (es ++ H) d = true.
Proof.
  induction D as [|d D IH]; intros H O HD; [exists []; split; [auto|intros d []]|].
  destruct (IH H O) as (es & O' & K'); [intros; apply HD; now right|]. destruct (kept (es ++ H) d) eqn:E.
  - exists es. split; [auto|]. intros d' [<-|Hd]; auto.
  - exists (d :: es). assert (Dd := HD d (or_introl eq_refl)). split; [cbn; auto|]. cbn [app]. intros d' [<-|Hd].
    + unfold kept, inl. cbn. now rewrite Z.eqb_refl.
    + change (d :: es ++ H) with ([d] ++ (es ++ H)). rewrite kept_app, K' by auto. apply orb_true_r.
Qed.
Lemma full_sub H : full_planar -> okes H -> planar H.
Proof.
  intros F O. destruct (extend (concat (map rot vs)) H O) as (es & O' & K).
  - intros d Hd. apply in_concat in Hd. destruct Hd as (l & Hl & Hd). apply in_map_iff in Hl. destruct Hl as (x & <- & Hx). destruct (Rt _ _ Hd) as [E _]. unfold src. now rewrite E.
  - apply (planar_sub es); [auto|]. apply F; [auto|]. intros d Hd. apply K. apply in_concat. exists (rot (src d)). split; [apply in_map; eauto|auto].
Qed.

Definition full_out : Prop := forall es, okes es -> covers es -> outpl es.
Lemma full_out_sub H : full_out -> okes H -> outpl H.
Proof.
  intros F O. destruct (extend (concat (map rot vs)) H O) as (es & O' & K).
  - intros d Hd. apply in_concat in Hd. destruct Hd as (l & Hl & Hd). apply in_map_iff in Hl. destruct Hl as (x & <- & Hx). destruct (Rt _ _ Hd) as [E _]. unfold src. now rewrite E.
  - apply (out_sub es); [auto|]. apply F; [auto|]. intros d Hd. apply K. apply in_concat. exists (rot (src d)). split; [apply in_map; eauto|auto].
Qed.

(** ** Faces against isolated vertices *)
Lemma crep_iso es x : okes es -> rt es x = [] -> (forall y, crep es y = x -> y = x) /\ crep es x = x.
Proof.
  intros O N. assert (Nd : forall d, dart es d -> src d <> x /\ nb d <> x).
  { intros d D. split; intros E.
    - assert (I : In d (rt es x)) by (apply in_rt; auto). rewrite N in I. destruct I.
    - assert (I : In (twin d) (rt es x)) by (apply in_rt; split; [now apply dart_twin|now rewrite src_twin]). rewrite N in I. destruct I. }
  clear N. induction es as [|e l IH]; [cbn; auto|]. destruct O as (O1 & O2 & O3).
  destruct IH as [I1 I2]; [auto|intros d D; apply Nd; now apply (del_dart l e O1 O2) in D|].
  destruct (Nd e (del_e l e O1 O2)) as [E1 E2]. cbn [crep]. split.
  - intros y. destruct (_ =? _) eqn:E; intros Q; [|now apply I1]. elim E1. now apply I1.
  - rewrite I2. destruct (Z.eqb_spec x (crep l (nb e))) as [Q|Q]; [|reflexivity]. elim E2. apply I1. now rewrite <- Q.
Qed.
Lemma comps_iso es d : okes es -> dart es d -> 1 + cnt (fun x => nilb (rt es x)) vs <= comps es.
Proof.
  intros O D. set (w := crep es (src d)). assert (Hw : In w vs) by (apply crep_in; [auto|eapply dart_src; eauto]).
  assert (Nw : nilb (rt es w) = false).
  { apply nilb_false. intros Q. destruct (crep_iso es w O Q) as [Q1 _]. specialize (Q1 (src d) eq_refl).
    assert (I : In d (rt es w)) by (apply in_rt; auto). rewrite Q in I. destruct I. }
  set (p := fun x => nilb (rt es x) || (x =? w)).
  assert (E : cnt p vs = cnt (fun x => nilb (rt es x)) vs + 1).
  { rewrite (cnt_point (fun x => nilb (rt es x)) p vs w); [|auto|auto|intros x _ Nx; unfold p; destruct (Z.eqb_spec x w); [congruence|apply orb_false_r]]. unfold p. rewrite Nw, Z.eqb_refl. cbn. lia. }
  assert (L : cnt p vs <= comps es); [|lia]. apply cnt_le. intros x Hx Px. unfold p in Px. apply orb_true_iff in Px. destruct Px as [Px|Px].
  - apply nilb_true in Px. apply Z.eqb_eq. now apply crep_iso.
  - apply Z.eqb_eq in Px. subst x. apply Z.eqb_eq. apply crep_idem.
Qed.
(** At least |H| - (number of vertices met) + 2 faces. *)
Lemma face_bound H V d FS : okes H -> fsys H FS -> defect H FS = Z.of_nat (length vs) -> dart H d -> NoDup V -> (forall x, In x vs -> rt H x <> [] -> In x V) ->
  2 + Z.of_nat (length H) - Z.of_nat (length V) <= Z.of_nat (length (filter (fun l => negb (nilb l)) FS)).
Proof.
  intros O S E D NV HV. pose proof (comps_iso H d O D) as C. unfold defect in E.
  assert (L1 : Z.of_nat (length FS) = cnt nilb FS + cnt (fun l => negb (nilb l)) FS).
  { unfold cnt. clear. induction FS as [|l FS IH]; [reflexivity|]. cbn [filter length]. destruct (nilb l); cbn [negb length]; lia. }
  assert (L2 : Z.of_nat (length vs) = cnt (fun x => nilb (rt H x)) vs + cnt (fun x => negb (nilb (rt H x))) vs).
  { unfold cnt. clear. induction vs as [|l FS IH]; [reflexivity|]. cbn [filter length]. destruct (nilb (rt H l)); cbn [negb length]; lia. }
  assert (L3 : cnt (fun x => negb (nilb (rt H x))) vs <= Z.of_nat (length V)).
  { unfold cnt. apply inj_le. apply NoDup_incl_length; [now apply NoDup_filter|]. intros x Hx. apply filter_In in Hx. destruct Hx as [Hx Q]. apply HV; auto. apply nilb_false. now apply negb_true_iff. }
  pose proof (fy_iso _ _ S). fold (cnt (fun l : list Z => negb (nilb l)) FS). lia.
Qed.

(** ** Trees have one face *)
Definition rk (k : Z -> bool) (x : Z) : list Z := filter k (rot x).
Definition phk (k : Z -> bool) : Z -> Z := fstep nb (rk k).
Definition dk (k : Z -> bool) (d : Z) : Prop := In d (rot (src d)) /\ k d = true.
Definition symk (k : Z -> bool) : Prop := forall d, k (twin d) = k d.
Lemma in_rk k x d : In d (rk k x) <-> dk k d /\ src d = x.
Proof.
  unfold rk, dk, src. rewrite filter_In. split.
  - intros [H K]. destruct (Rt _ _ H) as [E _]. rewrite E. auto.
  - intros [[H K] E]. rewrite E in H. auto.
Qed.
Lemma rk_nodup k x : NoDup (rk k x).
Proof. apply NoDup_filter, Rn. Qed.
Lemma dk_twin k d : symk k -> dk k d -> dk k (twin d).
Proof. intros Sk [H K]. split; [|now rewrite Sk]. rewrite src_twin. apply (Rt _ _ H). Qed.
Lemma phk_in k d : symk k -> dk k d -> dk k (phk k d) /\ src (phk k d) = nb d.
Proof.
  intros Sk D. assert (I : In (phk k d) (rk k (nb d))).
  { unfold phk, fstep. apply cnext_in; [apply rk_nodup|]. apply in_rk. split; [now apply dk_twin|apply src_twin]. }
  now apply in_rk in I.
Qed.
Definition closedk (k : Z -> bool) (P : list Z) : Prop := (forall d, In d P -> dk k d) /\ forall d, In d P -> In (phk k d) P.
Definition single (k : Z -> bool) : Prop := forall P, P <> [] -> closedk k P -> forall d, dk k d -> In d P.
Definition within (k : Z -> bool) (S : list Z) : Prop := forall d, dk k d -> In (src d) S /\ In (nb d) S.
Definition spans (k : Z -> bool) (S : list Z) : Prop := (exists x, S = [x]) \/ forall x, In x S -> rk k x <> [].

Section Half.
Variables (k k1 k2 : Z -> bool) (S1 S2 : list Z) (e : Z).
Hypothesis K : forall d, k d = (d =? e) || (d =? twin e) || k1 d || k2 d.
Hypothesis Y1 : symk k1.
Hypothesis W1 : within k1 S1.
Hypothesis W2 : within k2 S2.
Hypothesis Dj : forall x, In x S1 -> ~ In x S2.
Hypothesis He : In e (rot (src e)).
Hypothesis E1 : In (src e) S1.
Hypothesis E2 : In (nb e) S2.
Lemma half_e : dk k e.
Proof. split; [exact He|]. rewrite K, Z.eqb_refl. reflexivity. Qed.
Lemma half_t : dk k (twin e).
Proof. split; [rewrite src_twin; apply (Rt _ _ He)|]. rewrite K, Z.eqb_refl. rewrite orb_true_r. reflexivity. Qed.
Lemma half_sub1 d : dk k1 d -> dk k d.
Proof. intros [H Q]. split; [auto|]. rewrite K, Q, orb_true_r. reflexivity. Qed.
Lemma half_e1 : k1 e = false.
Proof. destruct (k1 e) eqn:Q; [|reflexivity]. destruct (W1 e (conj He Q)) as [_ Q2]. elim (Dj _ Q2 E2). Qed.
Lemma half_rk x : In x S1 -> rk k1 x = filter (fun d => negb (d =? e)) (rk k x).
Proof.
  intros Hx. unfold rk. pose proof (Rt x) as T. assert (W : forall d, In d (rot x) -> d <> twin e /\ (k2 d = false)).
  { intros d Hd. destruct (T d Hd) as [Ed _]. split.
    - intros ->. rewrite twin2 in Ed. apply (Dj x Hx). now rewrite <- Ed.
    - destruct (k2 d) eqn:Q; [|reflexivity]. destruct (W2 d) as [Q1 _]; [split; [unfold src; now rewrite Ed|auto]|]. unfold src in Q1. rewrite Ed in Q1. elim (Dj x Hx Q1). }
  induction (rot x) as [|d l IH]; [reflexivity|]. cbn [filter]. rewrite IH; [|intros; apply T; now right|intros; apply W; now right].
  destruct (W d (or_introl eq_refl)) as [N1 N2]. rewrite K, N2. destruct (Z.eqb_spec d e) as [->|N3].
  - rewrite half_e1. cbn [orb filter]. now rewrite Z.eqb_refl.
  - destruct (Z.eqb_spec d (twin e)); [congruence|]. cbn [orb]. rewrite orb_false_r. destruct (k1 d); [|reflexivity]. cbn [filter]. destruct (Z.eqb_spec d e); [congruence|reflexivity].
Qed.
Lemma half_phi d : dk k1 d -> phk k1 d = if phk k d =? e then phk k (twin e) else phk k d.
Proof.
  intros D. destruct (W1 d D) as [_ N]. change (phk k1 d) with (cnext (rk k1 (nb d)) (twin d)). rewrite half_rk by auto.
  change (phk k d) with (cnext (rk k (nb d)) (twin d)).
  assert (It : In (twin d) (rk k (nb d))) by (apply in_rk; split; [apply half_sub1, dk_twin; auto|apply src_twin]).
  assert (Nt : twin d <> e). { intros Q. pose proof (dk_twin _ _ Y1 D) as [_ Q2]. rewrite Q, half_e1 in Q2. discriminate. }
  destruct (Z.eq_dec (nb d) (src e)) as [E|E].
  - rewrite cnext_remove; [|apply rk_nodup|apply in_rk; split; [apply half_e|auto]|auto|auto].
    change (phk k (twin e)) with (cnext (rk k (nb (twin e))) (twin (twin e))). rewrite twin2. fold (src e). now rewrite E.
  - rewrite filter_same.
    + destruct (Z.eqb_spec (cnext (rk k (nb d)) (twin d)) e) as [Q|Q]; [|reflexivity]. exfalso. pose proof (cnext_in _ _ (rk_nodup k (nb d)) It) as I. rewrite Q in I. apply in_rk in I. destruct I. congruence.
    + intros y Hy. apply in_rk in Hy. destruct (Z.eqb_spec y e) as [->|]; [|reflexivity]. destruct Hy. congruence.
Qed.
(** Coming in by twin e one enters the k1 side, and some arc of it leads out to e. *)
Lemma half_in : rk k1 (src e) <> [] -> dk k1 (phk k (twin e)) /\ exists d, dk k1 d /\ phk k d = e.
Proof.
  intros Ne. change (phk k (twin e)) with (cnext (rk k (nb (twin e))) (twin (twin e))). rewrite twin2. fold (src e). set (L := rk k (src e)).
  assert (Ie : In e L) by (apply in_rk; split; [apply half_e|auto]). pose proof (rk_nodup k (src e)) as Nd. fold L in Nd.
  assert (NL : L <> [e]). { intros Q. apply Ne. rewrite half_rk by auto. fold L. rewrite Q. cbn. now rewrite Z.eqb_refl. }
  assert (G : forall s, In s L -> s <> e -> dk k1 s).
  { intros s Hs Ns. assert (I : In s (rk k1 (src e))) by (rewrite half_rk by auto; apply filter_In; split; [auto|]; destruct (Z.eqb_spec s e); [congruence|reflexivity]). now apply in_rk in I. }
  split.
  - apply G; [now apply cnext_in|]. intros Q. apply NL. now apply cnext_single.
  - destruct (cnext_pred L e Nd Ie) as (s & Hs & Qs). assert (Ns : s <> e) by (intros ->; apply NL; now apply cnext_single).
    exists (twin s). split; [apply dk_twin; auto|]. unfold phk, fstep. rewrite twin2. apply in_rk in Hs. destruct Hs as [_ Hs]. fold (src s). rewrite Hs. exact Qs.
Qed.
End Half.

Lemma inl_dec (x : Z) l : {In x l} + {~ In x l}.
Proof. apply (in_dec Z.eq_dec). Qed.
(** If a closed set enters the k1 side by twin e it comes out by e. *)
Lemma half_out k k1 k2 S1 S2 e P : (forall d, k d = (d =? e) || (d =? twin e) || k1 d || k2 d) -> symk k1 -> within k1 S1 -> within k2 S2 ->
  (forall x, In x S1 -> ~ In x S2) -> In e (rot (src e)) -> In (src e) S1 -> In (nb e) S2 -> single k1 -> closedk k P ->
  In (twin e) P -> In e P.
Proof.
  intros K Y1 W1 W2 Dj He E1 E2 Sg [C1 C2] Ht. destruct (inl_dec e P) as [|Ne]; [auto|]. exfalso.
  pose proof (half_phi k k1 k2 S1 S2 e K Y1 W1 W2 Dj He E2) as Hp.
  pose proof (half_rk k k1 k2 S1 S2 e K W1 W2 Dj He E2) as Hr.
  destruct (rk k1 (src e)) eqn:R.
  - apply Ne. assert (Q : phk k (twin e) = e); [|rewrite <- Q; now apply C2].
    change (phk k (twin e)) with (cnext (rk k (nb (twin e))) (twin (twin e))). rewrite twin2. fold (src e).
    rewrite Hr in R by auto. assert (A : forall d, In d (rk k (src e)) -> d = e).
    { intros d Hd. destruct (Z.eqb_spec d e) as [|N]; [auto|]. exfalso. assert (X : In d (filter (fun d => negb (d =? e)) (rk k (src e)))) by (apply filter_In; split; [auto|lia]). rewrite R in X. destruct X. }
    apply A. apply cnext_in; [apply rk_nodup|]. apply in_rk. split; [eapply half_e; eauto|auto].
  - destruct (half_in k k1 k2 S1 S2 e K Y1 W1 W2 Dj He E1 E2) as [G1 (d & G2 & G3)]; [rewrite R; discriminate|].
    set (P1 := filter k1 P). assert (I1 : forall x, In x P1 <-> In x P /\ k1 x = true) by (intros x; apply filter_In).
    assert (Hin : In (phk k (twin e)) P1) by (apply I1; split; [now apply C2|apply G1]).
    assert (Hd : In d P1).
    { apply Sg; [intros Q; rewrite Q in Hin; destruct Hin| |auto]. split.
      - intros x Hx. apply I1 in Hx. split; [apply C1; tauto|tauto].
      - intros x Hx. apply I1 in Hx. destruct Hx as [Hx Kx]. assert (D : dk k1 x) by (split; [apply (C1 x Hx)|auto]).
        apply I1. split; [|apply (phk_in k1 x Y1 D)]. rewrite (Hp x D). destruct (_ =? _); apply C2; auto. }
    apply I1 in Hd. apply Ne. rewrite <- G3. apply C2. tauto.
Qed.
Lemma half_all k k1 k2 S1 S2 e P : (forall d, k d = (d =? e) || (d =? twin e) || k1 d || k2 d) -> symk k1 -> within k1 S1 -> within k2 S2 ->
  (forall x, In x S1 -> ~ In x S2) -> In e (rot (src e)) -> In (src e) S1 -> In (nb e) S2 -> single k1 -> spans k1 S1 -> closedk k P ->
  (In e P -> In (twin e) P) ->
  ((exists d, In d P /\ k1 d = true) \/ In (twin e) P) -> (forall d, dk k1 d -> In d P) /\ (rk k1 (src e) <> [] -> In e P).
Proof.
  intros K Y1 W1 W2 Dj He E1 E2 Sg Sp [C1 C2] Hi Hs.
  pose proof (half_phi k k1 k2 S1 S2 e K Y1 W1 W2 Dj He E2) as Hp.
  destruct (rk k1 (src e)) eqn:R.
  - split; [|congruence]. intros d D. exfalso. destruct Sp as [[x ->]|Sp]; [|now apply (Sp _ E1)].
    destruct (W1 d D) as [Q _]. destruct Q as [Q|[]]. destruct E1 as [E1|[]]. assert (I : In d (rk k1 (src e))) by (apply in_rk; split; [auto|congruence]). rewrite R in I. destruct I.
  - destruct (half_in k k1 k2 S1 S2 e K Y1 W1 W2 Dj He E1 E2) as [G1 (d0 & G2 & G3)]; [rewrite R; discriminate|].
    set (P1 := filter k1 P). assert (I1 : forall x, In x P1 <-> In x P /\ k1 x = true) by (intros x; apply filter_In).
    assert (Hne : exists x, In x P1). { destruct Hs as [(x & Hx & Kx)|Hs]; [exists x; apply I1; auto|]. exists (phk k (twin e)). apply I1. split; [auto|apply G1]. }
    assert (All : forall d, dk k1 d -> In d P1).
    { apply Sg; [intros Q; destruct Hne as [x Hx]; rewrite Q in Hx; destruct Hx|]. split.
      - intros x Hx. apply I1 in Hx. split; [apply C1; tauto|tauto].
      - intros x Hx. apply I1 in Hx. destruct Hx as [Hx Kx]. assert (D : dk k1 x) by (split; [apply (C1 x Hx)|auto]).
        apply I1. split; [|apply (phk_in k1 x Y1 D)]. rewrite (Hp x D). destruct (Z.eqb_spec (phk k x) e) as [Q|Q]; [|auto]. apply C2, Hi. rewrite <- Q. auto. }
    split; [intros d D; apply All in D; apply I1 in D; tauto|]. intros _. rewrite <- G3. apply C2. apply All in G2. apply I1 in G2. tauto.
Qed.
Lemma single_join k k1 k2 S1 S2 e : (forall d, k d = (d =? e) || (d =? twin e) || k1 d || k2 d) -> symk k1 -> symk k2 -> within k1 S1 -> within k2 S2 ->
  (forall x, In x S1 -> ~ In x S2) -> In e (rot (src e)) -> In (src e) S1 -> In (nb e) S2 -> single k1 -> spans k1 S1 -> single k2 -> spans k2 S2 -> single k.
Proof.
  intros K Y1 Y2 W1 W2 Dj He E1 E2 Sg1 Sp1 Sg2 Sp2 P NP C.
  assert (K' : forall d, k d = (d =? twin e) || (d =? twin (twin e)) || k2 d || k1 d) by (intros d; rewrite K, twin2; lia).
  assert (Dj' : forall x, In x S2 -> ~ In x S1) by (intros x H1 H2; exact (Dj x H2 H1)).
  assert (He' : In (twin e) (rot (src (twin e)))) by (rewrite src_twin; apply (Rt _ _ He)).
  assert (E1' : In (src (twin e)) S2) by now rewrite src_twin. assert (E2' : In (nb (twin e)) S1) by exact E1.
  pose proof (half_out k k1 k2 S1 S2 e P K Y1 W1 W2 Dj He E1 E2 Sg1 C) as O1.
  pose proof (half_out k k2 k1 S2 S1 (twin e) P K' Y2 W2 W1 Dj' He' E1' E2' Sg2 C) as O2. rewrite twin2 in O2.
  pose proof (half_all k k1 k2 S1 S2 e P K Y1 W1 W2 Dj He E1 E2 Sg1 Sp1 C O2) as A1.
  pose proof (half_all k k2 k1 S2 S1 (twin e) P K' Y2 W2 W1 Dj' He' E1' E2' Sg2 Sp2 C) as A2. rewrite twin2 in A2. specialize (A2 O1).
  assert (Ee : In e P).
  { destruct P as [|d P]; [congruence|]. pose proof (proj1 C d (or_introl eq_refl)) as [Hd Kd]. rewrite K in Kd. set (P' := d :: P) in *.
    assert (IP : In d P') by now left.
    destruct (Z.eqb_spec d e) as [<-|N1]; [auto|]. destruct (Z.eqb_spec d (twin e)) as [Q|N2]; [apply O1; rewrite <- Q; auto|]. cbn [orb] in Kd.
    destruct (k1 d) eqn:Q1.
    - apply A1; [left; eauto|]. intros R. destruct Sp1 as [[x ->]|Sp1]; [|now apply (Sp1 _ E1)]. destruct (W1 d (conj Hd Q1)) as [Q _]. destruct Q as [Q|[]]. destruct E1 as [E1|[]].
      assert (I : In d (rk k1 (src e))) by (apply in_rk; split; [split; auto|congruence]). rewrite R in I. destruct I.
    - cbn [orb] in Kd. apply O1. apply A2; [left; eauto|]. intros R. destruct Sp2 as [[x ->]|Sp2]; [|now apply (Sp2 _ E1')]. destruct (W2 d (conj Hd Kd)) as [Q _]. destruct Q as [Q|[]]. destruct E1' as [E1'|[]].
      assert (I : In d (rk k2 (src (twin e)))) by (apply in_rk; split; [split; auto|congruence]). rewrite R in I. destruct I. }
  pose proof (O2 Ee) as Et. intros d [Hd Kd]. rewrite K in Kd.
  destruct (Z.eqb_spec d e) as [->|N1]; [auto|]. destruct (Z.eqb_spec d (twin e)) as [->|N2]; [auto|]. cbn [orb] in Kd.
  destruct (k1 d) eqn:Q1; [apply A1; [now right|split; auto]|]. cbn [orb] in Kd. apply A2; [now right|split; auto].
Qed.

Inductive tree : list Z -> list Z -> Prop :=
| tree_one x : In x vs -> tree [] [x]
| tree_join T1 S1 T2 S2 e : tree T1 S1 -> tree T2 S2 -> (forall x, In x S1 -> ~ In x S2) -> In e (rot (src e)) -> In (src e) S1 -> In (nb e) S2 -> tree (e :: T1 ++ T2) (S1 ++ S2).
Lemma kept_sym es : symk (kept es).
Proof. intros d. apply kept_twin. Qed.
Lemma kept_cons e l d : kept (e :: l) d = (d =? e) || (d =? twin e) || kept l d.
Proof.
  unfold kept, inl. cbn [existsb]. replace (twin d =? e) with (d =? twin e); [lia|].
  destruct (Z.eqb_spec d (twin e)) as [->|Ne]; [now rewrite twin2, Z.eqb_refl|]. symmetry. apply Z.eqb_neq. intros <-. now rewrite twin2 in Ne.
Qed.
Lemma kept_nil d : kept [] d = false.
Proof. reflexivity. Qed.
Lemma okes_app2 a b : okes a -> okes b -> (forall d, In d a -> kept b d = false) -> okes (a ++ b).
Proof.
  induction a as [|e a IH]; intros O1 O2 H; [auto|]. destruct O1 as (P1 & P2 & P3). cbn. split; [auto|]. split; [rewrite kept_app, P2; apply H; now left|apply IH; auto; intros; apply H; now right].
Qed.
Lemma tree_facts T S : tree T S -> S <> [] /\ NoDup S /\ incl S vs /\ length S = Datatypes.S (length T) /\ okes T /\ within (kept T) S /\ spans (kept T) S /\ single (kept T).
Proof.
  induction 1 as [x Hx|T1 S1 T2 S2 e H1 IH1 H2 IH2 Dj He E1 E2].
  - split; [discriminate|]. split; [constructor; [intros []|constructor]|]. split; [intros y [<-|[]]; auto|]. split; [reflexivity|]. split; [exact Logic.I|].
    split; [intros d [_ D]; discriminate|]. split; [left; eauto|]. intros P NP C. destruct P as [|d P]; [congruence|]. destruct (proj1 C d (or_introl eq_refl)) as [_ Q]. discriminate.
  - destruct IH1 as (N1 & D1 & V1 & L1 & O1 & W1 & P1 & G1), IH2 as (N2 & D2 & V2 & L2 & O2 & W2 & P2 & G2).
    assert (K : forall d, kept (e :: T1 ++ T2) d = (d =? e) || (d =? twin e) || kept T1 d || kept T2 d) by (intros d; rewrite kept_cons, kept_app; lia).
    assert (X1 : kept T1 e = false). { destruct (kept T1 e) eqn:Q; [|auto]. destruct (W1 e (conj He Q)) as [_ Q2]. elim (Dj _ Q2 E2). }
    assert (X2 : kept T2 e = false). { destruct (kept T2 e) eqn:Q; [|auto]. destruct (W2 e (conj He Q)) as [Q2 _]. elim (Dj _ E1 Q2). }
    assert (He' : In (twin e) (rot (src (twin e)))) by (rewrite src_twin; apply (Rt _ _ He)).
    split; [destruct S1; [congruence|discriminate]|].
    split; [apply NoDup_app_intro; auto|].
    split; [apply incl_app; auto|].
    split; [rewrite app_length; cbn [length]; rewrite app_length; lia|].
    split; [cbn; split; [auto|]; split; [rewrite kept_app, X1, X2; reflexivity|]|].
    { apply okes_app2; auto. intros d Hd. destruct (okes_dart _ _ O1 Hd) as [Q1 Q2]. destruct (W1 d (conj Q1 Q2)) as [Q3 _]. destruct (kept T2 d) eqn:Q; [|auto]. destruct (W2 d (conj Q1 Q)) as [Q4 _]. elim (Dj _ Q3 Q4). }
    split.
    { intros d [Hd Kd]. rewrite K in Kd. rewrite !in_app_iff. destruct (Z.eqb_spec d e) as [->|M1]; [auto|]. destruct (Z.eqb_spec d (twin e)) as [->|M2]; [rewrite src_twin; auto|]. cbn [orb] in Kd.
      destruct (kept T1 d) eqn:Q1; [destruct (W1 d (conj Hd Q1)); auto|]. destruct (W2 d (conj Hd Kd)); auto. }
    split.
    { right. assert (G : forall T S0 x u, tree T S0 -> In u S0 -> In x S0 -> spans (kept T) S0 -> x <> u -> exists d, dk (kept T) d /\ src d = x).
      { intros T S0 x u _ Hu Hx [[y ->]|Sp] Nx; [destruct Hu as [<-|[]], Hx as [<-|[]]; congruence|]. specialize (Sp x Hx). destruct (rk (kept T) x) as [|d l] eqn:R; [congruence|]. exists d. apply in_rk. rewrite R. now left. }
      intros x Hx R. assert (Q : exists d, dk (kept (e :: T1 ++ T2)) d /\ src d = x).
      { apply in_app_iff in Hx. destruct Hx as [Hx|Hx].
        - destruct (Z.eq_dec x (src e)) as [->|Nx]; [exists e; split; [split; [auto|rewrite K, Z.eqb_refl; auto]|auto]|].
          destruct (G T1 S1 x (src e) H1 E1 Hx P1 Nx) as (d & [Q1 Q2] & Q3). exists d. split; [split; [auto|rewrite K, Q2, orb_true_r; auto]|auto].
        - destruct (Z.eq_dec x (nb e)) as [->|Nx]; [exists (twin e); split; [split; [auto|rewrite K, Z.eqb_refl, orb_true_r; auto]|apply src_twin]|].
          destruct (G T2 S2 x (nb e) H2 E2 Hx P2 Nx) as (d & [Q1 Q2] & Q3). exists d. split; [split; [auto|rewrite K, Q2, orb_true_r; auto]|auto]. }
      destruct Q as (d & Q1 & Q2). assert (I : In d (rk (kept (e :: T1 ++ T2)) x)) by (apply in_rk; auto). rewrite R in I. destruct I. }
    apply (single_join _ (kept T1) (kept T2) S1 S2 e K (kept_sym _) (kept_sym _) W1 W2 Dj He E1 E2 G1 P1 G2 P2).
Qed.

(** A face that stays on the arcs of [k], one-faced, is all of [k]: so no other arc is at a vertex of [k]. *)
Lemma trapped h k P : (forall d, k d = true -> h d = true) -> symk h -> symk k -> single k -> P <> [] -> closedk h P -> (forall d, In d P -> k d = true) ->
  forall t d, dk k t -> dk h d -> src d = src t -> k d = true.
Proof.
  intros Sub Yh Yk Sg NP [C1 C2] PK.
  assert (Hp : forall d, In d P -> phk k d = phk h d).
  { intros d Hd. pose proof (PK d Hd) as Kd. pose proof (PK _ (C2 d Hd)) as Kp. pose proof (C1 d Hd) as Dh. assert (Dk : dk k d) by (split; [apply Dh|auto]).
    assert (It : In (twin d) (rk k (nb d))) by (apply in_rk; split; [apply dk_twin; auto|apply src_twin]).
    assert (Ith : In (twin d) (rk h (nb d))) by (apply in_rk; split; [apply dk_twin; auto|apply src_twin]).
    unfold phk, fstep in *. revert Kp. assert (Fk : rk k (nb d) = filter k (rk h (nb d))).
    { unfold rk. clear - Sub. induction (rot (nb d)) as [|y l IH]; [reflexivity|]. cbn [filter]. destruct (k y) eqn:Q; [rewrite (Sub y Q); cbn [filter]; rewrite Q; congruence|]. destruct (h y); cbn [filter]; rewrite ?Q; auto. }
    rewrite Fk. pose proof (rk_nodup h (nb d)) as Nd. revert Ith Nd. generalize (rk h (nb d)). intros L Hi Nd Kp.
    assert (Kt : k (twin d) = true) by now rewrite Yk.
    apply in_split in Hi as (l1 & l2 & ->). rewrite cnext_split in * by auto. rewrite filter_app in *. cbn [filter]. rewrite Kt.
    rewrite cnext_split.
    - destruct l2 as [|y l2]; cbn [hd filter] in *; [|rewrite Kp; reflexivity]. destruct l1 as [|y l1]; cbn [hd filter] in *; [reflexivity|]. rewrite Kp. reflexivity.
    - apply (NoDup_filter k) in Nd. rewrite filter_app in Nd. cbn [filter] in Nd. rewrite Kt in Nd. exact Nd. }
  assert (All : forall d, dk k d -> In d P).
  { apply Sg; auto. split; [intros d Hd; split; [apply (C1 d Hd)|auto]|]. intros d Hd. rewrite (Hp d Hd). auto. }
  intros t d Dt Dd Es. set (L := rk h (src t)). assert (It : In t L) by (apply in_rk; split; [split; [apply Dt|apply Sub, Dt]|auto]).
  assert (Id : In d L) by (apply in_rk; auto). pose proof (rk_nodup h (src t)) as Nd. fold L in Nd.
  assert (Step : forall s, In s L -> k s = true -> k (cnext L s) = true).
  { intros s Hs Ks. apply in_rk in Hs. destruct Hs as [Ds Es']. assert (Dks : dk k s) by (split; [apply Ds|auto]).
    pose proof (C2 _ (All _ (dk_twin _ _ Yk Dks))) as Q. apply PK in Q. unfold phk, fstep in Q. rewrite twin2 in Q. change (nb (twin s)) with (src s) in Q. rewrite Es' in Q. exact Q. }
  assert (Kt : k t = true) by apply Dt. clear - It Id Nd Step Kt.
  apply in_split in It as (l1 & l2 & E). rewrite E in *. clear L E.
  assert (G : forall m1 s m2, l1 ++ t :: l2 = m1 ++ s :: m2 -> k s = true -> forall y, In y m2 -> k y = true).
  { intros m1 s m2. revert m1 s. induction m2 as [|z m2 IH]; intros m1 s E Ks y Hy; [destruct Hy|].
    assert (Kz : k z = true). { assert (Q : cnext (l1 ++ t :: l2) s = z) by (rewrite E in *; rewrite cnext_split by auto; reflexivity). rewrite <- Q. apply Step; auto. rewrite E. apply in_app_iff. right. now left. }
    destruct Hy as [<-|Hy]; [auto|]. apply (IH (m1 ++ [s]) z); auto. rewrite <- app_assoc. exact E. }
  assert (K2 : forall y, In y l2 -> k y = true) by (apply (G l1 t l2); auto).
  assert (K1 : forall y, In y l1 -> k y = true).
  { destruct l1 as [|z l1]; [intros y []|]. assert (Kz : k z = true).
    { destruct (list_snoc l2) as [->|(m & u & ->)].
      - assert (Q : cnext ((z :: l1) ++ [t]) t = z) by (rewrite cnext_last by auto; reflexivity). rewrite <- Q. apply Step; auto. apply in_app_iff. right. now left.
      - assert (EQ : (z :: l1) ++ t :: m ++ [u] = (z :: l1 ++ t :: m) ++ [u]) by (cbn; rewrite <- app_assoc; reflexivity).
        assert (Q : cnext ((z :: l1) ++ t :: m ++ [u]) u = z) by (rewrite EQ in *; rewrite cnext_last by auto; reflexivity). rewrite <- Q. apply Step.
        + rewrite EQ. apply in_app_iff. right. now left.
        + apply K2. apply in_app_iff. right. now left. }
    intros y [<-|Hy]; [auto|]. apply (G [] z (l1 ++ t :: l2)); auto. apply in_app_iff. now left. }
  apply in_app_iff in Id. destruct Id as [Id|[<-|Id]]; auto.
Qed.

(** ** Contracted sets *)
Section Minor.
Variables (ks : list Z) (lab : Z -> Z) (BS BT : Z -> list Z) (X : list Z).
Hypothesis Nk : NoDup ks.
Hypothesis Tr : forall i, In i ks -> tree (BT i) (BS i).
Hypothesis La : forall i x, In i ks -> In x (BS i) -> lab x = i.
Definition atb (x : Z) : Prop := In (lab x) ks /\ In x (BS (lab x)).
Hypothesis Xd : forall e, In e X -> In e (rot (src e)) /\ atb (src e) /\ atb (nb e) /\ lab (src e) <> lab (nb e).
Hypothesis Xn : NoDup X.
Hypothesis Xu : forall e e', In e X -> In e' X ->
  (lab (src e) = lab (src e') /\ lab (nb e) = lab (nb e')) \/ (lab (src e) = lab (nb e') /\ lab (nb e) = lab (src e')) -> e = e'.
Hypothesis Deg : forall i j, In i ks -> exists e, (In e X \/ In (twin e) X) /\ lab (src e) = i /\ lab (nb e) <> j.
Definition HH : list Z := X ++ concat (map BT ks).
Definition xd (d : Z) : bool := negb (lab (src d) =? lab (nb d)).

Lemma cross_both d : In d X \/ In (twin d) X -> In d (rot (src d)) /\ atb (src d) /\ atb (nb d) /\ lab (src d) <> lab (nb d).
Proof.
  intros [H|H]; [now apply Xd|]. destruct (Xd _ H) as (A & B & C & D). rewrite src_twin in *. change (nb (twin d)) with (src d) in *.
  split; [|auto]. pose proof (proj2 (Rt _ _ A)) as Q. rewrite twin2 in Q. exact Q.
Qed.
Lemma kept_in es d : kept es d = true <-> In d es \/ In (twin d) es.
Proof. unfold kept. rewrite orb_true_iff, !inl_true. tauto. Qed.
Lemma kept_trees l d : kept (concat (map BT l)) d = true <-> exists i, In i l /\ kept (BT i) d = true.
Proof.
  induction l as [|i l IH]; cbn [map concat]; [split; [discriminate|intros (i & [] & _)]|]. rewrite kept_app, orb_true_iff, IH. split.
  - intros [H|(j & Hj & H)]; [exists i; split; [now left|auto]|exists j; split; [now right|auto]].
  - intros (j & [<-|Hj] & H); [now left|right; eauto].
Qed.
Lemma tree_dart i d : In i ks -> In d (rot (src d)) -> kept (BT i) d = true -> In (src d) (BS i) /\ In (nb d) (BS i) /\ lab (src d) = i /\ lab (nb d) = i.
Proof. intros Hi Hd Kd. destruct (tree_facts _ _ (Tr i Hi)) as (_ & _ & _ & _ & _ & W & _). destruct (W d (conj Hd Kd)). eauto 6. Qed.
Lemma H_trees_ok l : NoDup l -> incl l ks -> okes (concat (map BT l)).
Proof.
  induction l as [|i l IH]; intros Nd Il; [exact Logic.I|]. apply NoDup_cons_iff in Nd. destruct Nd as [Ni Nd]. cbn [map concat].
  assert (Hi : In i ks) by (apply Il; now left). destruct (tree_facts _ _ (Tr i Hi)) as (_ & _ & _ & _ & O & _).
  apply okes_app2; [auto|apply IH; auto; intros j Hj; apply Il; now right|]. intros d Hd. destruct (okes_dart _ _ O Hd) as [D1 D2].
  destruct (kept (concat (map BT l)) d) eqn:Q; [|auto]. apply kept_trees in Q. destruct Q as (j & Hj & Kj).
  destruct (tree_dart i d Hi D1 D2) as (_ & _ & E1 & _). destruct (tree_dart j d (Il j (or_intror Hj)) D1 Kj) as (_ & _ & E2 & _). congruence.
Qed.
Lemma X_ok l : NoDup l -> incl l X -> okes l.
Proof.
  induction l as [|e l IH]; intros Nd Il; [exact Logic.I|]. apply NoDup_cons_iff in Nd. destruct Nd as [Ni Nd].
  assert (He : In e X) by (apply Il; now left). cbn. split; [apply Xd; auto|]. split; [|apply IH; auto; intros j Hj; apply Il; now right].
  destruct (kept l e) eqn:Q; [|auto]. apply kept_in in Q. destruct Q as [Q|Q]; [contradiction|]. exfalso.
  assert (Q2 : e = twin e). { apply Xu; [auto|apply Il; now right|]. right. rewrite src_twin. auto. }
  exact (twin_ne e (eq_sym Q2)).
Qed.
Lemma HH_ok : okes HH.
Proof.
  apply okes_app2; [apply X_ok; [auto|apply incl_refl]|apply H_trees_ok; [auto|apply incl_refl]|]. intros d Hd.
  destruct (Xd d Hd) as (D1 & _ & _ & N). destruct (kept (concat (map BT ks)) d) eqn:Q; [|auto]. apply kept_trees in Q. destruct Q as (j & Hj & Kj).
  destruct (tree_dart j d Hj D1 Kj) as (_ & _ & E1 & E2). congruence.
Qed.
Lemma HH_dart d : dart HH d -> (xd d = true /\ (In d X \/ In (twin d) X)) \/ (xd d = false /\ exists i, In i ks /\ kept (BT i) d = true /\ lab (src d) = i /\ lab (nb d) = i).
Proof.
  intros [D K]. unfold HH in K. rewrite kept_app, orb_true_iff in K. destruct K as [K|K].
  - apply kept_in in K. left. split; [|auto]. destruct (cross_both d K) as (_ & _ & _ & N). unfold xd. destruct (Z.eqb_spec (lab (src d)) (lab (nb d))); [contradiction|reflexivity].
  - apply kept_trees in K. destruct K as (i & Hi & K). right. destruct (tree_dart i d Hi D K) as (_ & _ & E1 & E2). split; [unfold xd; rewrite E1, E2, Z.eqb_refl; reflexivity|eauto].
Qed.

Fixpoint lw (p : Z) (ms : list Z) (q : Z) : Prop :=
  match ms with [] => p = q | c :: r => lab (src c) = p /\ lw (lab (nb c)) r q end.
Lemma face_lw q : forall l, fchain (phi HH) l q -> l <> [] -> (forall d, In d l -> dart HH d) ->
  lw (lab (src (hd NIL l))) (filter xd l) (lab (src q)) /\
  forall d, In d l -> lab (src d) = lab (src (hd NIL l)) \/ exists c, In c (filter xd l) /\ lab (src d) = lab (nb c).
Proof.
  induction l as [|d l IH]; intros C N D; [congruence|]. cbn [fchain] in C. destruct C as [C1 C2].
  pose proof (D d (or_introl eq_refl)) as Dd. pose proof (proj2 (phi_dart _ _ Dd)) as Sd. rewrite C1 in Sd.
  assert (Step : xd d = false -> lab (src d) = lab (nb d)) by (unfold xd; destruct (Z.eqb_spec (lab (src d)) (lab (nb d))); [auto|discriminate]).
  destruct l as [|y l].
  - cbn [hd filter] in *. split.
    + destruct (xd d) eqn:Q; cbn [lw]; [split; [auto|congruence]|]. rewrite (Step eq_refl). congruence.
    + intros d' [<-|[]]. now left.
  - destruct (IH C2 ltac:(discriminate)) as [I1 I2]; [intros; apply D; now right|]. cbn [hd] in Sd, I1, I2. change (hd NIL (d :: y :: l)) with d.
    assert (Fl : filter xd (d :: y :: l) = if xd d then d :: filter xd (y :: l) else filter xd (y :: l)) by reflexivity. rewrite Fl. clear Fl. rewrite Sd in I1.
    destruct (xd d) eqn:Q.
    + split; [cbn [lw]; auto|]. intros d' [<-|Hd]; [now left|]. right. destruct (I2 d' Hd) as [E|(c & Hc & E)]; [exists d; split; [now left|congruence]|exists c; split; [now right|auto]].
    + rewrite (Step eq_refl). split; [auto|]. intros d' [<-|Hd]; [left; auto|]. destruct (I2 d' Hd) as [E|(c & Hc & E)]; [left; congruence|right; eauto].
Qed.
Lemma trap_done i j l K SK : In i ks -> tree K SK -> incl (BS i) SK -> (exists x y, In x SK /\ In y SK /\ x <> y) ->
  (forall d, kept K d = true -> kept HH d = true) -> l <> [] -> closedk (kept HH) l -> (forall d, In d l -> kept K d = true) ->
  (forall d, In d (rot (src d)) -> kept K d = true -> lab (src d) = i -> lab (nb d) = i \/ lab (nb d) = j) -> False.
Proof.
  intros Hi TK IS (x & y & Hx & Hy & Nxy) Sub Nl C LK Out.
  destruct (tree_facts _ _ TK) as (_ & _ & _ & _ & _ & W & Sp & Sg).
  destruct Sp as [[z ->]|Sp]; [destruct Hx as [<-|[]], Hy as [<-|[]]; congruence|].
  destruct (Deg i j Hi) as (d & Hd & E1 & E2). destruct (cross_both d Hd) as (D1 & (A1 & A2) & (B1 & B2) & N).
  assert (Hs : In (src d) SK) by (apply IS; now rewrite <- E1). specialize (Sp _ Hs). destruct (rk (kept K) (src d)) as [|t r] eqn:R; [congruence|].
  assert (It : In t (rk (kept K) (src d))) by (rewrite R; now left). apply in_rk in It. destruct It as [Dt Et].
  assert (Kd : kept K d = true).
  { apply (trapped (kept HH) (kept K) l Sub (kept_sym _) (kept_sym _) Sg Nl C LK t d Dt); [|auto]. split; [auto|]. unfold HH. rewrite kept_app. apply orb_true_iff. left. apply kept_in. tauto. }
  destruct (Out d D1 Kd E1) as [Q|Q]; congruence.
Qed.
Lemma closed_of l : fclosed (phi HH) l -> (forall d, In d l -> dart HH d) -> closedk (kept HH) l.
Proof.
  intros [N C] D. split; [exact D|]. intros d Hd. change (phk (kept HH) d) with (phi HH d). apply in_split in Hd as (a & b & ->).
  apply fchain_app in C. destruct C as [_ C]. cbn [hd fchain] in C. destruct C as [-> _]. destruct b as [|y b]; cbn [hd]; [|apply in_app_iff; right; right; now left].
  destruct a; [now left|now left].
Qed.
Lemma face_three l : fclosed (phi HH) l -> (forall d, In d l -> dart HH d) -> (3 <= length (filter xd l))%nat.
Proof.
  intros F D. pose proof (closed_of l F D) as C. destruct F as [Nl Ch]. destruct (face_lw _ l Ch Nl D) as [W I]. set (p := lab (src (hd NIL l))) in *.
  destruct (filter xd l) as [|c1 [|c2 [|c3 ms]]] eqn:Q; [exfalso| | |cbn; lia].
  - (* no crossing *)
    assert (All : forall d, In d l -> In p ks /\ kept (BT p) d = true).
    { intros d Hd. destruct (HH_dart d (D d Hd)) as [[Xt _]|(_ & i & Hi & Ki & E1 & E2)].
      - assert (In d (filter xd l)) as B by (apply filter_In; auto). rewrite Q in B. destruct B.
      - destruct (I d Hd) as [E|(c & [] & _)]. rewrite E1 in E. rewrite <- E. split; assumption. }
    assert (Hh : In (hd NIL l) l) by (destruct l; [congruence|now left]). destruct (All _ Hh) as [Hp Kp].
    destruct (tree_dart p (hd NIL l) Hp (proj1 (D _ Hh)) Kp) as (B1 & B2 & _).
    apply (trap_done p p l (BT p) (BS p)); auto.
    + apply incl_refl.
    + exists (nb (hd NIL l)), (src (hd NIL l)). split; [auto|split; [auto|]]. eapply dart_noloop; eauto.
    + intros d Kd. unfold HH. rewrite kept_app. apply orb_true_iff. right. apply kept_trees. eauto.
    + apply All.
    + intros d Hd Kd _. left. eapply tree_dart; eauto.
  - exfalso. assert (Xc : xd c1 = true) by (assert (In c1 (filter xd l)) as B by (rewrite Q; now left); apply filter_In in B; tauto).
    cbn [lw] in W. destruct W as [W1 W2]. unfold xd in Xc. rewrite W1, W2, Z.eqb_refl in Xc. discriminate.
  - exfalso. assert (B1 : In c1 l /\ xd c1 = true) by (apply filter_In; rewrite Q; now left). assert (B2 : In c2 l /\ xd c2 = true) by (apply filter_In; rewrite Q; right; now left).
    cbn [lw] in W. destruct W as (W1 & W2 & W3).
    destruct (HH_dart c1 (D _ (proj1 B1))) as [[_ X1]|[X1 _]]; [|destruct B1; congruence]. destruct (HH_dart c2 (D _ (proj1 B2))) as [[_ X2]|[X2 _]]; [|destruct B2; congruence].
    destruct (cross_both c1 X1) as (D1 & (A1 & A2) & (A3 & A4) & N1). set (a := lab (src c1)) in *. set (b := lab (nb c1)) in *.
    assert (Et : c2 = twin c1).
    { assert (G : forall u w, In u X \/ In (twin u) X -> In w X \/ In (twin w) X -> lab (src w) = lab (nb u) -> lab (nb w) = lab (src u) -> lab (src u) <> lab (nb u) -> w = twin u).
      { intros u w Hu Hw E1 E2 Nu. destruct Hu as [Hu|Hu], Hw as [Hw|Hw].
        - assert (w = u) by (apply Xu; auto). subst w. congruence.
        - assert (twin w = u); [|subst u; now rewrite twin2]. apply Xu; auto. left. rewrite src_twin. auto.
        - apply Xu; auto. left. rewrite src_twin. auto.
        - assert (Q2 : twin w = twin u) by (apply Xu; auto; right; rewrite !src_twin; auto). apply twin_eq_inj in Q2. subst w. congruence. }
      apply (G c1 c2); auto; unfold a, b in *; congruence. }
    assert (TJ : tree (c1 :: BT a ++ BT b) (BS a ++ BS b)).
    { apply tree_join; auto. intros x H1 H2. apply N1. rewrite <- (La a x A1 H1). now apply La. }
    apply (trap_done a b l (c1 :: BT a ++ BT b) (BS a ++ BS b)); auto.
    + apply incl_appl, incl_refl.
    + exists (nb c1), (src c1). rewrite !in_app_iff. split; [auto|split; [auto|]]. exact (Rl _ _ D1).
    + intros d Kd. rewrite kept_cons, kept_app in Kd. unfold HH. rewrite kept_app. apply orb_true_iff.
      destruct (Z.eqb_spec d c1) as [M1|M1]; [left; rewrite M1; now apply kept_in|]. destruct (Z.eqb_spec d (twin c1)) as [M2|M2]; [left; rewrite M2, kept_twin; now apply kept_in|].
      cbn [orb] in Kd. right. apply kept_trees. apply orb_true_iff in Kd. destruct Kd; [exists a|exists b]; auto.
    + intros d Hd. rewrite kept_cons, kept_app. destruct (HH_dart d (D d Hd)) as [[Xt _]|(_ & i & Hi & Ki & E1 & E2)].
      * assert (B : In d (filter xd l)) by (apply filter_In; auto). rewrite Q in B. destruct B as [B|[B|[]]]; rewrite <- B; [now rewrite Z.eqb_refl|]. rewrite Et, Z.eqb_refl. now rewrite orb_true_r.
      * assert (E : i = a \/ i = b). { destruct (I d Hd) as [E|(c & Hc & E)]; [left; congruence|]. destruct Hc as [Hc|[Hc|[]]]; rewrite <- Hc in E; [right; rewrite <- E1, E; reflexivity|left; rewrite <- E1, E, W3; symmetry; exact W1]. }
        destruct E as [E|E]; rewrite E in Ki; rewrite Ki, ?orb_true_r; reflexivity.
    + intros d Hd Kd Ea. rewrite kept_cons, kept_app in Kd. destruct (Z.eqb_spec d c1) as [M1|M1]; [right; rewrite M1; auto|].
      destruct (Z.eqb_spec d (twin c1)) as [M2|M2]; [left; rewrite M2; auto|]. cbn [orb] in Kd. apply orb_true_iff in Kd. destruct Kd as [Kd|Kd]; [left|right]; eapply tree_dart; eauto.
Qed.
Lemma sum_len (f g : Z -> list Z) l n : (forall x, In x l -> Z.of_nat (length (f x)) = Z.of_nat (length (g x)) + n) ->
  Z.of_nat (length (concat (map f l))) = Z.of_nat (length (concat (map g l))) + n * Z.of_nat (length l).
Proof.
  induction l as [|x l IH]; intros H; cbn [map concat length]; [lia|]. rewrite !app_length. pose proof (H x (or_introl eq_refl)). specialize (IH (fun y Hy => H y (or_intror Hy))). lia.
Qed.
Lemma sum_faces n FS : (forall l, In l FS -> l <> [] -> (n <= length (filter xd l))%nat) ->
  Z.of_nat n * Z.of_nat (length (filter (fun l => negb (nilb l)) FS)) <= Z.of_nat (length (filter xd (concat FS))).
Proof.
  induction FS as [|l FS IH]; intros H; [cbn; lia|]. cbn [filter concat]. rewrite filter_app, app_length. specialize (IH (fun y Hy => H y (or_intror Hy))).
  destruct l as [|d l]; cbn [nilb negb]; [cbn [filter length]; lia|]. pose proof (H (d :: l) (or_introl eq_refl) ltac:(discriminate)). cbn [length]. lia.
Qed.
Lemma minor_core FS : X <> [] -> fsys HH FS -> defect HH FS = Z.of_nat (length vs) ->
  2 + Z.of_nat (length X) - Z.of_nat (length ks) <= Z.of_nat (length (filter (fun l => negb (nilb l)) FS)) /\ Z.of_nat (length (filter xd (concat FS))) <= 2 * Z.of_nat (length X).
Proof.
  intros NX S Df. set (V := concat (map BS ks)).
  assert (NV : NoDup V).
  { unfold V. assert (G : forall l, NoDup l -> incl l ks -> NoDup (concat (map BS l))).
    { induction l as [|i l IH]; intros Nd Il; [constructor|]. apply NoDup_cons_iff in Nd. destruct Nd as [Ni Nd]. cbn [map concat]. assert (Hi : In i ks) by (apply Il; now left).
      apply NoDup_app_intro; [apply (tree_facts _ _ (Tr i Hi))|apply IH; auto; intros j Hj; apply Il; now right|]. intros x H1 H2. apply in_concat in H2. destruct H2 as (s & Hs & Hx). apply in_map_iff in Hs. destruct Hs as (j & <- & Hj).
      apply Ni. rewrite <- (La i x Hi H1). rewrite (La j x); auto. apply Il. now right. }
    apply G; [auto|apply incl_refl]. }
  destruct X as [|e0 X0] eqn:EX; [congruence|]. rewrite <- EX in *. assert (He0 : In e0 X) by (rewrite EX; now left).
  assert (D0 : dart HH e0) by (apply okes_dart; [apply HH_ok|apply in_app_iff; auto]).
  pose proof (face_bound HH V e0 FS HH_ok S Df D0 NV) as L. match type of L with ?A -> _ => assert (Q : A) end; [|specialize (L Q)].
  { intros x Hx Nx. destruct (rt HH x) as [|d r] eqn:R; [congruence|]. assert (I : In d (rt HH x)) by (rewrite R; now left). apply in_rt in I. destruct I as [D <-].
    apply in_concat. exists (BS (lab (src d))). destruct (HH_dart d D) as [[_ B]|(_ & i & Hi & Ki & E1 & E2)].
    - destruct (cross_both d B) as (_ & [A1 A2] & _). split; [now apply in_map|auto].
    - rewrite E1. split; [now apply in_map|]. apply (tree_dart i d Hi (proj1 D) Ki). }
  assert (LH : Z.of_nat (length HH) - Z.of_nat (length V) = Z.of_nat (length X) - Z.of_nat (length ks)).
  { unfold HH, V. rewrite app_length. assert (Z.of_nat (length (concat (map BS ks))) = Z.of_nat (length (concat (map BT ks))) + 1 * Z.of_nat (length ks)); [|lia].
    apply sum_len. intros i Hi. destruct (tree_facts _ _ (Tr i Hi)) as (_ & _ & _ & L' & _). lia. }
  assert (UB : Z.of_nat (length (filter xd (concat FS))) <= 2 * Z.of_nat (length X)).
  { assert (length (filter xd (concat FS)) <= length (X ++ map twin X))%nat; [|rewrite app_length, map_length in *; lia].
    apply NoDup_incl_length; [apply NoDup_filter, S|]. intros d Hd. apply filter_In in Hd. destruct Hd as [Hd Xt]. apply (fy_arcs _ _ S) in Hd.
    destruct (HH_dart d Hd) as [[_ [B|B]]|[B _]]; [apply in_app_iff; auto| |congruence]. apply in_app_iff. right. apply in_map_iff. exists (twin d). split; [apply twin2|auto]. }
  split; [lia|exact UB].
Qed.
Lemma minor_bound (n : nat) : full_planar -> X <> [] -> (forall l, fclosed (phi HH) l -> (forall d, In d l -> dart HH d) -> (n <= length (filter xd l))%nat) ->
  Z.of_nat n * (2 + Z.of_nat (length X) - Z.of_nat (length ks)) <= 2 * Z.of_nat (length X).
Proof.
  intros FP NX Fn. destruct (full_sub HH FP HH_ok) as (FS & S & Df). destruct (minor_core FS NX S Df) as [L UB].
  assert (SF : Z.of_nat n * Z.of_nat (length (filter (fun l => negb (nilb l)) FS)) <= Z.of_nat (length (filter xd (concat FS)))).
  { apply sum_faces. intros l Hl Nl. apply Fn; [apply S; auto|]. intros d Hd. apply (fy_arcs _ _ S), in_concat. eauto. }
  assert (Z.of_nat n * (2 + Z.of_nat (length X) - Z.of_nat (length ks)) <= Z.of_nat n * Z.of_nat (length (filter (fun l => negb (nilb l)) FS))) by (apply Z.mul_le_mono_nonneg_l; lia).
  lia.
Qed.
(** With a face that meets every vertex: that face has a crossing for each of the sets. *)
Lemma lw_last ms p q : lw p ms q -> ms <> [] -> exists c, In c ms /\ lab (nb c) = q.
Proof.
  revert p. induction ms as [|c ms IH]; intros p W N; [congruence|]. destruct W as [_ W]. destruct ms as [|c' ms]; [exists c; split; [now left|exact W]|].
  destruct (IH _ W ltac:(discriminate)) as (c0 & H & E). exists c0. split; [now right|auto].
Qed.
Lemma tree_const (r : Z -> Z) T S0 : tree T S0 -> (forall e, In e T -> r (src e) = r (nb e)) -> forall x y, In x S0 -> In y S0 -> r x = r y.
Proof.
  induction 1 as [x Hx|T1 S1 T2 S2 e H1 IH1 H2 IH2 Dj He E1 E2]; intros Hr; [intros a b [<-|[]] [<-|[]]; reflexivity|].
  assert (A1 : forall a b, In a S1 -> In b S1 -> r a = r b) by (apply IH1; intros a Ha; apply Hr; right; apply in_app_iff; auto).
  assert (A2 : forall a b, In a S2 -> In b S2 -> r a = r b) by (apply IH2; intros a Ha; apply Hr; right; apply in_app_iff; auto).
  pose proof (Hr e (or_introl eq_refl)) as Q. intros a b Ha Hb. apply in_app_iff in Ha, Hb. destruct Ha as [Ha|Ha], Hb as [Hb|Hb]; auto.
  - rewrite (A1 a (src e)), (A2 b (nb e)) by auto. exact Q.
  - rewrite (A2 a (nb e)), (A1 b (src e)) by auto. now symmetry.
Qed.
Lemma outer_cross FS : X <> [] -> fsys HH FS -> outw HH FS ->
  (forall q : Z -> Z, (forall e, In e X -> q (lab (src e)) = q (lab (nb e))) -> forall i j, In i ks -> In j ks -> q i = q j) ->
  exists O, In O FS /\ O <> [] /\ (length ks <= length (filter xd O))%nat.
Proof.
  intros NX S W Con. set (r := crep HH). assert (Cd : forall d, dart HH d -> r (src d) = r (nb d)) by (intros d D; apply crep_dart; [apply HH_ok|auto]).
  assert (Hd0 : forall i, In i ks -> In (hd NIL (BS i)) (BS i)) by (intros i Hi; apply hd_in; apply (tree_facts _ _ (Tr i Hi))).
  assert (Ct : forall i x y, In i ks -> In x (BS i) -> In y (BS i) -> r x = r y).
  { intros i x y Hi. apply (tree_const r (BT i)); [auto|]. intros e He. apply Cd. apply okes_dart; [apply HH_ok|]. unfold HH. apply in_app_iff. right. apply in_concat. exists (BT i). split; [now apply in_map|auto]. }
  assert (Xdart : forall e, In e X \/ In (twin e) X -> dart HH e).
  { intros e He. destruct (cross_both e He) as (D1 & _). split; [auto|]. unfold HH. rewrite kept_app. apply orb_true_iff. left. now apply kept_in. }
  assert (Eq : forall i j, In i ks -> In j ks -> r (hd NIL (BS i)) = r (hd NIL (BS j))).
  { apply (Con (fun i => r (hd NIL (BS i)))). intros e He. destruct (Xd e He) as (D1 & [A1 A2] & [B1 B2] & _).
    rewrite (Ct (lab (src e)) (hd NIL (BS (lab (src e)))) (src e)), (Ct (lab (nb e)) (hd NIL (BS (lab (nb e)))) (nb e)) by auto. apply Cd, Xdart. now left. }
  assert (Wit : forall i, In i ks -> exists x, In x vs /\ rt HH x <> [] /\ lab x = i /\ r x = r (hd NIL (BS i))).
  { intros i Hi. destruct (Deg i i Hi) as (e & He & E1 & _). destruct (cross_both e He) as (D1 & [A1 A2] & _). rewrite E1 in A2. exists (src e).
    pose proof (Xdart e He) as D. split; [eapply dart_src; eauto|]. split; [intros Q; assert (I : In e (rt HH (src e))) by (apply in_rt; auto); rewrite Q in I; destruct I|].
    split; [auto|]. apply (Ct i); auto. }
  destruct X as [|e0 X0] eqn:EX; [congruence|]. rewrite <- EX in *. assert (He0 : In e0 X) by (rewrite EX; now left). clear EX.
  destruct (Xd e0 He0) as (_ & [K1 _] & [K2 _] & N0). destruct (Wit _ K1) as (x & Hx & Nx & _ & Rx). destruct (W x Hx Nx) as (O & IO & HO).
  assert (Vis : forall i, In i ks -> exists d, In d O /\ lab (src d) = i).
  { intros i Hi. destruct (Wit i Hi) as (y & Hy & Ny & Ly & Ry). destruct (HO y Hy Ny) as (d & Hd & Ed); [change (r y = r x); rewrite Ry, Rx; now apply Eq|]. exists d. split; [auto|congruence]. }
  exists O. split; [exact IO|]. assert (NO : O <> []) by (intros Q; destruct (Vis _ K1) as (d & Hd & _); rewrite Q in Hd; destruct Hd). split; [exact NO|].
  destruct (fy_closed _ _ S O IO NO) as [_ Ch]. destruct (face_lw _ O Ch NO) as [Wk Iv]; [intros d Hd; apply (fy_arcs _ _ S), in_concat; eauto|].
  assert (NF : filter xd O <> []).
  { intros Q. rewrite Q in *. apply N0. assert (G : forall i, In i ks -> i = lab (src (hd NIL O))). { intros i Hi. destruct (Vis i Hi) as (d & Hd & <-). destruct (Iv d Hd) as [E|(c & [] & _)]. exact E. }
    pose proof (G _ K1). pose proof (G _ K2). congruence. }
  rewrite <- (map_length (fun c => lab (nb c)) (filter xd O)). apply NoDup_incl_length; [exact Nk|]. intros i Hi. apply in_map_iff. destruct (Vis i Hi) as (d & Hd & <-).
  destruct (Iv d Hd) as [E|(c & Hc & E)]; [|exists c; auto]. destruct (lw_last _ _ _ Wk NF) as (c & Hc & Ec). exists c. split; [congruence|auto].
Qed.
Lemma minor_out (n : nat) : full_out -> X <> [] -> (forall l, fclosed (phi HH) l -> (forall d, In d l -> dart HH d) -> (n <= length (filter xd l))%nat) ->
  (forall q : Z -> Z, (forall e, In e X -> q (lab (src e)) = q (lab (nb e))) -> forall i j, In i ks -> In j ks -> q i = q j) ->
  Z.of_nat n * (1 + Z.of_nat (length X) - Z.of_nat (length ks)) + Z.of_nat (length ks) <= 2 * Z.of_nat (length X).
Proof.
  intros FP NX Fn Con. destruct (full_out_sub HH FP HH_ok) as (FS & S & Df & W). destruct (minor_core FS NX S Df) as [L UB].
  destruct (outer_cross FS NX S W Con) as (O & IO & NO & LO).
  assert (Fn' : forall l, In l FS -> l <> [] -> (n <= length (filter xd l))%nat) by (intros l Hl Nl; apply Fn; [apply S; auto|]; intros d Hd; apply (fy_arcs _ _ S), in_concat; eauto).
  apply in_split in IO as (F1 & F2 & EF). rewrite EF in *. rewrite filter_app, app_length in L. cbn [filter] in L. destruct O as [|d0 O]; [congruence|]. cbn [nilb negb length] in L.
  rewrite concat_app, filter_app, app_length in UB. cbn [concat] in UB. rewrite filter_app, app_length in UB.
  pose proof (sum_faces n F1) as S1. pose proof (sum_faces n F2) as S2. 
  assert (S1' := S1 ltac:(intros l Hl; apply Fn', in_app_iff; now left)). assert (S2' := S2 ltac:(intros l Hl; apply Fn', in_app_iff; right; now right)). clear S1 S2.
  remember (Z.of_nat (length (filter (fun l => negb (nilb l)) F1))) as a. remember (Z.of_nat (length (filter (fun l => negb (nilb l)) F2))) as b.
  assert (Z.of_nat n * (1 + Z.of_nat (length X) - Z.of_nat (length ks)) <= Z.of_nat n * (a + b)) by (apply Z.mul_le_mono_nonneg_l; lia).
  lia.
Qed.
Lemma face_four (col : Z -> bool) l : (forall e, In e X -> col (lab (src e)) <> col (lab (nb e))) -> fclosed (phi HH) l -> (forall d, In d l -> dart HH d) -> (4 <= length (filter xd l))%nat.
Proof.
  intros Cl F D. pose proof (face_three l F D) as T. destruct F as [Nl Ch]. destruct (face_lw _ l Ch Nl D) as [W _].
  assert (Cb : forall c, In c (filter xd l) -> col (lab (nb c)) = negb (col (lab (src c)))).
  { intros c Hc. apply filter_In in Hc. destruct Hc as [Hc Xc]. destruct (HH_dart c (D c Hc)) as [[_ B]|[B _]]; [|congruence].
    assert (N : col (lab (src c)) <> col (lab (nb c))). { destruct B as [B|B]; [now apply Cl|]. apply Cl in B. rewrite src_twin in B. change (nb (twin c)) with (src c) in B. congruence. }
    destruct (col (lab (src c))), (col (lab (nb c))); cbn; congruence. }
  destruct (filter xd l) as [|c1 [|c2 [|c3 [|c4 ms]]]]; cbn [length] in *; try lia. exfalso. cbn [lw] in W. destruct W as (W1 & W2 & W3 & W4).
  pose proof (Cb c1 (or_introl eq_refl)) as Q1. pose proof (Cb c2 (or_intror (or_introl eq_refl))) as Q2. pose proof (Cb c3 (or_intror (or_intror (or_introl eq_refl)))) as Q3.
  rewrite W2, Q1 in Q2. rewrite W3, Q2, W1, <- W4 in Q3. destruct (col (lab (nb c3))); discriminate.
Qed.
End Minor.

(** ** Connected sets of vertices *)
Definition edge (x y : Z) : Prop := exists e, In e (rot x) /\ nb e = y.
Lemma edge_sym x y : edge x y -> edge y x.
Proof. intros (e & H & <-). destruct (Rt _ _ H) as [E I]. exists (twin e). auto. Qed.
Lemma edge_vs x y : edge x y -> In x vs /\ In y vs.
Proof. intros E. split; [destruct E as (e & H & _); eauto|]. apply edge_sym in E. destruct E as (e & H & _); eauto. Qed.
Inductive joined (L : list Z) (x : Z) : Z -> Prop :=
| jo_refl : In x L -> joined L x x
| jo_step y z : joined L x y -> edge y z -> In z L -> joined L x z.
Definition cset (L : list Z) : Prop := L <> [] /\ incl L vs /\ forall x y, In x L -> In y L -> joined L x y.
Lemma joined_in L x y : joined L x y -> In x L /\ In y L.
Proof. induction 1; tauto. Qed.
Lemma joined_cross L S0 x y : joined L x y -> In x S0 -> ~ In y S0 -> exists u w, In u S0 /\ In w L /\ ~ In w S0 /\ edge u w.
Proof.
  induction 1 as [H|y z J IH E Hz]; intros Hx Hy; [contradiction|]. destruct (inl_dec y S0) as [H|H]; [exists y, z; auto|auto].
Qed.
Lemma grow L : cset L -> forall n T S0, tree T S0 -> incl S0 L -> (length (filter (fun x => negb (inl x S0)) L) <= n)%nat -> exists T' S', tree T' S' /\ forall x, In x S' <-> In x L.
Proof.
  intros (NL & VL & J). induction n as [|n IH]; intros T S0 TS I Ln.
  - exists T, S0. split; [auto|]. intros x. split; [apply I|]. intros Hx. destruct (inl x S0) eqn:Q; [now apply inl_true|]. exfalso.
    assert (B : In x (filter (fun x => negb (inl x S0)) L)) by (apply filter_In; rewrite Q; auto). destruct (filter (fun x => negb (inl x S0)) L) as [|z r]; [destruct B|cbn [length] in Ln; lia].
  - destruct (filter (fun x => negb (inl x S0)) L) as [|y r] eqn:Q; [apply (IH T S0 TS I); rewrite Q; cbn; lia|].
    assert (B : In y (filter (fun x => negb (inl x S0)) L)) by (rewrite Q; now left). apply filter_In in B. destruct B as [Hy B]. apply negb_true_iff, inl_false in B.
    destruct (tree_facts _ _ TS) as (NS & _). destruct S0 as [|x0 S0]; [congruence|]. destruct (joined_cross L (x0 :: S0) x0 y) as (u & w & Hu & Hw & Nw & e & He & Ew).
    { apply J; [apply I; now left|auto]. } { now left. } { auto. }
    assert (Es : src e = u) by (unfold src; apply (Rt _ _ He)).
    assert (TS' : tree (e :: T ++ []) ((x0 :: S0) ++ [w])).
    { apply tree_join; [auto|constructor; apply VL; auto| | | |].
      - intros x Hx [<-|[]]. contradiction.
      - now rewrite Es.
      - now rewrite Es.
      - rewrite Ew. now left. }
    apply (IH _ _ TS').
    + apply incl_app; [auto|intros z [<-|[]]; auto].
    + assert (G : forall l, (In w l -> length (filter (fun x => negb (inl x ((x0 :: S0) ++ [w]))) l) < length (filter (fun x => negb (inl x (x0 :: S0))) l))%nat /\ (length (filter (fun x => negb (inl x ((x0 :: S0) ++ [w]))) l) <= length (filter (fun x => negb (inl x (x0 :: S0))) l))%nat).
      { induction l as [|z l [I1 I2]]; [split; [intros []|apply Nat.le_refl]|]. cbn [filter].
        assert (Z1 : inl z ((x0 :: S0) ++ [w]) = inl z (x0 :: S0) || (z =? w)) by (unfold inl; rewrite existsb_app; cbn [existsb]; rewrite orb_false_r; reflexivity).
        rewrite Z1. split.
        - intros [->|Hw']; [|specialize (I1 Hw'); destruct (inl z (x0 :: S0)), (z =? w); cbn [orb negb length]; lia]. apply inl_false in Nw. rewrite Nw, Z.eqb_refl. cbn [orb negb length]. lia.
        - destruct (inl z (x0 :: S0)), (z =? w); cbn [orb negb length]; lia. }
      destruct (G L) as [G1 _]. specialize (G1 Hw). rewrite Q in G1. cbn [length] in *. lia.
Qed.
Lemma conn_tree L : cset L -> exists T S', tree T S' /\ forall x, In x S' <-> In x L.
Proof.
  intros C. pose proof C as (NL & VL & J). destruct L as [|x L]; [congruence|].
  apply (grow (x :: L) C (length (x :: L)) [] [x]); [constructor; apply VL; now left|intros y [<-|[]]; now left|].
  assert (G : forall (f : Z -> bool) l, (length (filter f l) <= length l)%nat) by (intros f l; induction l as [|z l IH]; cbn [filter]; [lia|destruct (f z); cbn [length]; lia]). apply G.
Qed.
Lemma choose {A B} (R : A -> B -> Prop) (eqd : forall a b : A, {a = b} + {a <> b}) (d : B) l : (forall a, In a l -> exists b, R a b) -> exists f, forall a, In a l -> R a (f a).
Proof.
  induction l as [|a l IH]; intros H; [exists (fun _ => d); intros a []|]. destruct IH as [f Hf]; [intros; apply H; now right|]. destruct (H a (or_introl eq_refl)) as [b Hb].
  exists (fun x => if eqd x a then b else f x). intros x Hx. destruct (eqd x a) as [->|N]; [auto|]. destruct Hx as [<-|Hx]; [congruence|auto].
Qed.
Definition touch (A B : list Z) : Prop := exists x y, In x A /\ In y B /\ edge x y.

Section Pairs.
Variables (ks : list Z) (prs : list (Z * Z)) (BL : Z -> list Z).
Hypothesis Nk : NoDup ks.
Hypothesis Cn : forall i, In i ks -> cset (BL i).
Hypothesis Dj : forall i j x, In i ks -> In j ks -> In x (BL i) -> In x (BL j) -> i = j.
Hypothesis Np : NoDup prs.
Hypothesis Pk : forall i j, In (i, j) prs -> In i ks /\ In j ks /\ i <> j /\ touch (BL i) (BL j) /\ ~ In (j, i) prs.
Hypothesis Pd : forall i j, In i ks -> exists m, m <> j /\ (In (i, m) prs \/ In (m, i) prs).
Hypothesis Pn : prs <> [].
Lemma pairs_bound_all :
  (full_planar -> 3 * (2 + Z.of_nat (length prs) - Z.of_nat (length ks)) <= 2 * Z.of_nat (length prs) /\
    ((exists col, forall i j, In (i, j) prs -> col i = true /\ col j = false) -> 4 * (2 + Z.of_nat (length prs) - Z.of_nat (length ks)) <= 2 * Z.of_nat (length prs))) /\
  (full_out -> (forall q : Z -> Z, (forall i j, In (i, j) prs -> q i = q j) -> forall i j, In i ks -> In j ks -> q i = q j) ->
    3 * (1 + Z.of_nat (length prs) - Z.of_nat (length ks)) + Z.of_nat (length ks) <= 2 * Z.of_nat (length prs) /\
    ((exists col, forall i j, In (i, j) prs -> col i = true /\ col j = false) -> 4 * (1 + Z.of_nat (length prs) - Z.of_nat (length ks)) + Z.of_nat (length ks) <= 2 * Z.of_nat (length prs))).
Proof.
  destruct (choose (fun i (p : list Z * list Z) => tree (fst p) (snd p) /\ forall x, In x (snd p) <-> In x (BL i)) Z.eq_dec ([], []) ks) as [TS HTS].
  { intros i Hi. destruct (conn_tree _ (Cn i Hi)) as (T & S0 & H1 & H2). exists (T, S0). auto. }
  destruct (choose (fun (p : Z * Z) e => In e (rot (src e)) /\ In (src e) (BL (fst p)) /\ In (nb e) (BL (snd p))) (fun a b => ltac:(decide equality; apply Z.eq_dec)) 0 prs) as [xe Hxe].
  { intros [i j] Hp. destruct (Pk i j Hp) as (_ & _ & _ & (x & y & Hx & Hy & e & He & Ee) & _). exists e. destruct (Rt _ _ He) as [Es _]. cbn [fst snd]. unfold src. rewrite Es, Ee. auto. }
  set (lab := fun x => match find (fun i => inl x (BL i)) ks with Some i => i | None => 0 end).
  assert (La : forall i x, In i ks -> In x (BL i) -> lab x = i).
  { intros i x Hi Hx. unfold lab. destruct (find (fun i => inl x (BL i)) ks) as [j|] eqn:Q.
    - apply find_some in Q. destruct Q as [Hj Q]. apply inl_true in Q. eapply Dj; eauto.
    - apply find_none with (x := i) in Q; [|auto]. apply inl_false in Q. contradiction. }
  assert (Hx : forall p, In p prs -> In (xe p) (rot (src (xe p))) /\ In (fst p) ks /\ In (snd p) ks /\ lab (src (xe p)) = fst p /\ lab (nb (xe p)) = snd p /\ In (src (xe p)) (BL (fst p)) /\ In (nb (xe p)) (BL (snd p)) /\ fst p <> snd p).
  { intros [i j] Hp. destruct (Hxe _ Hp) as (H1 & H2 & H3). destruct (Pk i j Hp) as (K1 & K2 & K3 & _). cbn [fst snd] in *. repeat split; auto. }
  assert (Inj : forall p q, In p prs -> In q prs -> xe p = xe q -> p = q).
  { intros [i j] [i' j'] Hp Hq E. destruct (Hx _ Hp) as (_ & _ & _ & L1 & L2 & _). destruct (Hx _ Hq) as (_ & _ & _ & L3 & L4 & _). cbn [fst snd] in *. rewrite E in *. congruence. }
  assert (Tr' : forall i, In i ks -> tree (fst (TS i)) (snd (TS i))) by (intros i Hi; apply (HTS i Hi)).
  assert (La' : forall i x, In i ks -> In x (snd (TS i)) -> lab x = i) by (intros i x Hi Hx'; apply La; [auto|]; now apply (HTS i Hi)).
  set (X := map xe prs).
  assert (Xd' : forall e, In e X -> In e (rot (src e)) /\ atb ks lab (fun i => snd (TS i)) (src e) /\ atb ks lab (fun i => snd (TS i)) (nb e) /\ lab (src e) <> lab (nb e)).
  { intros e He. apply in_map_iff in He. destruct He as (p & <- & Hp). destruct (Hx p Hp) as (H1 & H2 & H3 & H4 & H5 & H6 & H7 & H8). unfold atb. rewrite H4, H5. repeat split; auto; [now apply (HTS _ H2)|now apply (HTS _ H3)]. }
  assert (Xn' : NoDup X).
  { unfold X. clear - Np Inj. induction prs as [|p l IH]; [constructor|]. apply NoDup_cons_iff in Np. destruct Np as [N1 N2]. cbn. constructor.
    - intros H. apply in_map_iff in H. destruct H as (q & E & Hq). assert (q = p) by (apply Inj; auto; [now right|now left]). congruence.
    - apply IH; auto. intros; apply Inj; auto; now right. }
  assert (Xu' : forall e e', In e X -> In e' X -> (lab (src e) = lab (src e') /\ lab (nb e) = lab (nb e')) \/ (lab (src e) = lab (nb e') /\ lab (nb e) = lab (src e')) -> e = e').
  { intros e e' He He' H. apply in_map_iff in He. destruct He as ([i j] & <- & Hp). apply in_map_iff in He'. destruct He' as ([i' j'] & <- & Hq).
    destruct (Hx _ Hp) as (_ & _ & _ & L1 & L2 & _). destruct (Hx _ Hq) as (_ & _ & _ & L3 & L4 & _). cbn [fst snd] in *. rewrite L1, L2, L3, L4 in H.
    destruct H as [[-> ->]|[-> ->]]; [reflexivity|]. destruct (Pk _ _ Hp) as (_ & _ & _ & _ & N). contradiction. }
  assert (Dg : forall i j, In i ks -> exists e, (In e X \/ In (twin e) X) /\ lab (src e) = i /\ lab (nb e) <> j).
  { intros i j Hi. destruct (Pd i j Hi) as (m & Nm & [Hm|Hm]).
    - destruct (Hx _ Hm) as (_ & _ & _ & L1 & L2 & _). cbn [fst snd] in *. exists (xe (i, m)). split; [left; now apply in_map|]. rewrite L2. auto.
    - destruct (Hx _ Hm) as (_ & _ & _ & L1 & L2 & _). cbn [fst snd] in *. exists (twin (xe (m, i))). split; [right; rewrite twin2; now apply in_map|]. rewrite src_twin, L2. split; [auto|]. change (nb (twin (xe (m, i)))) with (src (xe (m, i))). now rewrite L1. }
  assert (LX : length X = length prs) by apply map_length.
  assert (NX : X <> []) by (unfold X; destruct prs; [congruence|discriminate]).
  set (HX := HH ks (fun i => fst (TS i)) X).
  assert (F3 : forall l, fclosed (phi HX) l -> (forall d, In d l -> dart HX d) -> (3 <= length (filter (xd lab) l))%nat).
  { intros l F D. apply (face_three ks lab (fun i => snd (TS i)) (fun i => fst (TS i)) X); auto. }
  assert (F4 : (exists col, forall i j, In (i, j) prs -> col i = true /\ col j = false) -> forall l, fclosed (phi HX) l -> (forall d, In d l -> dart HX d) -> (4 <= length (filter (xd lab) l))%nat).
  { intros [col Hc] l F D. apply (face_four ks lab (fun i => snd (TS i)) (fun i => fst (TS i)) X) with (col := col); auto.
    intros e He. apply in_map_iff in He. destruct He as ([i j] & <- & Hp). destruct (Hx _ Hp) as (_ & _ & _ & L1 & L2 & _). cbn [fst snd] in *. rewrite L1, L2. destruct (Hc _ _ Hp) as [-> ->]. discriminate. }
  split.
  - intros FP. pose proof (minor_bound ks lab (fun i => snd (TS i)) (fun i => fst (TS i)) X Nk Tr' La' Xd' Xn' Xu' Dg) as MB. rewrite LX in MB. split.
    + apply (MB 3%nat FP NX), F3.
    + intros C. apply (MB 4%nat FP NX), F4, C.
  - intros FP Con. pose proof (minor_out ks lab (fun i => snd (TS i)) (fun i => fst (TS i)) X Nk Tr' La' Xd' Xn' Xu' Dg) as MB. rewrite LX in MB.
    assert (Con' : forall q : Z -> Z, (forall e, In e X -> q (lab (src e)) = q (lab (nb e))) -> forall i j, In i ks -> In j ks -> q i = q j).
    { intros q Hq. apply Con. intros i j Hp. destruct (Hx _ Hp) as (_ & _ & _ & L1 & L2 & _). cbn [fst snd] in *. pose proof (Hq _ (in_map xe _ _ Hp)) as Q. rewrite L1, L2 in Q. exact Q. }
    split.
    + apply (MB 3%nat FP NX F3 Con').
    + intros C. apply (MB 4%nat FP NX (F4 C) Con').
Qed.
Lemma pairs_bound : full_planar ->
  3 * (2 + Z.of_nat (length prs) - Z.of_nat (length ks)) <= 2 * Z.of_nat (length prs) /\
  ((exists col, forall i j, In (i, j) prs -> col i = true /\ col j = false) -> 4 * (2 + Z.of_nat (length prs) - Z.of_nat (length ks)) <= 2 * Z.of_nat (length prs)).
Proof. apply pairs_bound_all. Qed.
End Pairs.

(** The two forbidden contractions. *)
Theorem no_K5 BL : (forall i, 1 <= i <= 5 -> cset (BL i)) -> (forall i j x, 1 <= i < j -> j <= 5 -> In x (BL i) -> ~ In x (BL j)) ->
  (forall i j, 1 <= i < j -> j <= 5 -> touch (BL i) (BL j)) -> ~ full_planar.
Proof.
  intros Cn Dj Tc FP. set (ks := [1; 2; 3; 4; 5]). set (prs := [(1, 2); (1, 3); (1, 4); (1, 5); (2, 3); (2, 4); (2, 5); (3, 4); (3, 5); (4, 5)]).
  assert (Hk : forall i, In i ks -> 1 <= i <= 5) by (intros i H; cbn in H; lia).
  destruct (pairs_bound ks prs BL) as [B _]; [| | | | | | |auto|cbn in B; lia].
  - repeat constructor; cbn; lia.
  - intros i Hi. apply Cn, Hk, Hi.
  - intros i j x Hi Hj H1 H2. apply Hk in Hi. apply Hk in Hj. destruct (Z.lt_trichotomy i j) as [L|[E|L]]; [|auto|]; exfalso; [apply (Dj i j x)|apply (Dj j i x)]; auto; lia.
  - unfold prs. repeat constructor; cbn [In]; intuition congruence.
  - intros i j H. assert (Q : 1 <= i < j /\ j <= 5) by (cbn in H; repeat (destruct H as [H|H]; [injection H as <- <-; lia|]); destruct H).
    split; [cbn; lia|]. split; [cbn; lia|]. split; [lia|]. split; [apply Tc; lia|]. intros H2.
    assert (Q2 : 1 <= j < i) by (cbn in H2; repeat (destruct H2 as [H2|H2]; [injection H2 as <- <-; lia|]); destruct H2). lia.
  - intros i j Hi. cbn in Hi. destruct (Z.eq_dec j 1); destruct (Z.eq_dec j 2); try lia; destruct Hi as [<-|[<-|[<-|[<-|[<-|[]]]]]];
      (exists 1; split; [lia|cbn; tauto]) || (exists 2; split; [lia|cbn; tauto]) || (exists 3; split; [lia|cbn; tauto]).
  - discriminate.
Qed.
Theorem no_K33 BL : (forall i, 1 <= i <= 6 -> cset (BL i)) -> (forall i j x, 1 <= i < j -> j <= 6 -> In x (BL i) -> ~ In x (BL j)) ->
  (forall i j, 1 <= i <= 3 -> 4 <= j <= 6 -> touch (BL i) (BL j)) -> ~ full_planar.
Proof.
  intros Cn Dj Tc FP. set (ks := [1; 2; 3; 4; 5; 6]). set (prs := [(1, 4); (1, 5); (1, 6); (2, 4); (2, 5); (2, 6); (3, 4); (3, 5); (3, 6)]).
  assert (Hk : forall i, In i ks -> 1 <= i <= 6) by (intros i H; cbn in H; lia).
  destruct (pairs_bound ks prs BL) as [_ B]; [| | | | | | |auto|].
  - repeat constructor; cbn; lia.
  - intros i Hi. apply Cn, Hk, Hi.
  - intros i j x Hi Hj H1 H2. apply Hk in Hi. apply Hk in Hj. destruct (Z.lt_trichotomy i j) as [L|[E|L]]; [|auto|]; exfalso; [apply (Dj i j x)|apply (Dj j i x)]; auto; lia.
  - unfold prs. repeat constructor; cbn [In]; intuition congruence.
  - intros i j H. assert (Q : 1 <= i <= 3 /\ 4 <= j <= 6) by (cbn in H; repeat (destruct H as [H|H]; [injection H as <- <-; lia|]); destruct H).
    split; [cbn; lia|]. split; [cbn; lia|]. split; [lia|]. split; [apply Tc; lia|]. intros H2.
    assert (Q2 : 1 <= j <= 3) by (cbn in H2; repeat (destruct H2 as [H2|H2]; [injection H2 as <- <-; lia|]); destruct H2). lia.
  - intros i j Hi. cbn in Hi. destruct (Z.eq_dec j 1); destruct (Z.eq_dec j 4); try lia; destruct Hi as [<-|[<-|[<-|[<-|[<-|[<-|[]]]]]]];
      (exists 1; split; [lia|cbn; tauto]) || (exists 2; split; [lia|cbn; tauto]) || (exists 4; split; [lia|cbn; tauto]) || (exists 5; split; [lia|cbn; tauto]).
  - discriminate.
  - assert (Q : 4 * (2 + Z.of_nat (length prs) - Z.of_nat (length ks)) <= 2 * Z.of_nat (length prs)); [|cbn in Q; lia]. apply B.
    exists (fun i => i <=? 3). intros i j H. assert (Q : 1 <= i <= 3 /\ 4 <= j <= 6) by (cbn in H; repeat (destruct H as [H|H]; [injection H as <- <-; lia|]); destruct H). lia.
Qed.
(** The two that cannot be drawn with all the vertices on one face. *)
Theorem no_K4 BL : (forall i, 1 <= i <= 4 -> cset (BL i)) -> (forall i j x, 1 <= i < j -> j <= 4 -> In x (BL i) -> ~ In x (BL j)) ->
  (forall i j, 1 <= i < j -> j <= 4 -> touch (BL i) (BL j)) -> ~ full_out.
Proof.
  intros Cn Dj Tc FP. set (ks := [1; 2; 3; 4]). set (prs := [(1, 2); (1, 3); (1, 4); (2, 3); (2, 4); (3, 4)]).
  assert (Hk : forall i, In i ks -> 1 <= i <= 4) by (intros i H; cbn in H; lia).
  destruct (pairs_bound_all ks prs BL) as [_ B]; [| | | | | | |].
  - repeat constructor; cbn; lia.
  - intros i Hi. apply Cn, Hk, Hi.
  - intros i j x Hi Hj H1 H2. apply Hk in Hi. apply Hk in Hj. destruct (Z.lt_trichotomy i j) as [L|[E|L]]; [|auto|]; exfalso; [apply (Dj i j x)|apply (Dj j i x)]; auto; lia.
  - unfold prs. repeat constructor; cbn [In]; intuition congruence.
  - intros i j H. assert (Q : 1 <= i < j /\ j <= 4) by (cbn in H; repeat (destruct H as [H|H]; [injection H as <- <-; lia|]); destruct H).
    split; [cbn; lia|]. split; [cbn; lia|]. split; [lia|]. split; [apply Tc; lia|]. intros H2.
    assert (Q2 : 1 <= j < i) by (cbn in H2; repeat (destruct H2 as [H2|H2]; [injection H2 as <- <-; lia|]); destruct H2). lia.
  - intros i j Hi. cbn in Hi. destruct (Z.eq_dec j 1); destruct (Z.eq_dec j 2); try lia; destruct Hi as [<-|[<-|[<-|[<-|[]]]]];
      (exists 1; split; [lia|cbn; tauto]) || (exists 2; split; [lia|cbn; tauto]) || (exists 3; split; [lia|cbn; tauto]).
  - discriminate.
  - destruct (B FP) as [C _]; [|cbn in C; lia]. intros q Hq.
    assert (Q : forall i, In i ks -> q i = q 1).
    { intros i Hi. cbn in Hi. destruct Hi as [<-|[<-|[<-|[<-|[]]]]]; [reflexivity| | |]; symmetry; apply Hq; cbn; tauto. }
    intros i j Hi Hj. rewrite (Q i Hi), (Q j Hj). reflexivity.
Qed.
Theorem no_K23 BL : (forall i, 1 <= i <= 5 -> cset (BL i)) -> (forall i j x, 1 <= i < j -> j <= 5 -> In x (BL i) -> ~ In x (BL j)) ->
  (forall i j, 1 <= i <= 2 -> 3 <= j <= 5 -> touch (BL i) (BL j)) -> ~ full_out.
Proof.
  intros Cn Dj Tc FP. set (ks := [1; 2; 3; 4; 5]). set (prs := [(1, 3); (1, 4); (1, 5); (2, 3); (2, 4); (2, 5)]).
  assert (Hk : forall i, In i ks -> 1 <= i <= 5) by (intros i H; cbn in H; lia).
  destruct (pairs_bound_all ks prs BL) as [_ B]; [| | | | | | |].
  - repeat constructor; cbn; lia.
  - intros i Hi. apply Cn, Hk, Hi.
  - intros i j x Hi Hj H1 H2. apply Hk in Hi. apply Hk in Hj. destruct (Z.lt_trichotomy i j) as [L|[E|L]]; [|auto|]; exfalso; [apply (Dj i j x)|apply (Dj j i x)]; auto; lia.
  - unfold prs. repeat constructor; cbn [In]; intuition congruence.
  - intros i j H. assert (Q : 1 <= i <= 2 /\ 3 <= j <= 5) by (cbn in H; repeat (destruct H as [H|H]; [injection H as <- <-; lia|]); destruct H).
    split; [cbn; lia|]. split; [cbn; lia|]. split; [lia|]. split; [apply Tc; lia|]. intros H2.
    assert (Q2 : 1 <= j <= 2) by (cbn in H2; repeat (destruct H2 as [H2|H2]; [injection H2 as <- <-; lia|]); destruct H2). lia.
  - intros i j Hi. cbn in Hi. destruct (Z.eq_dec j 1); destruct (Z.eq_dec j 3); try lia; destruct Hi as [<-|[<-|[<-|[<-|[<-|[]]]]]];
      (exists 1; split; [lia|cbn; tauto]) || (exists 2; split; [lia|cbn; tauto]) || (exists 3; split; [lia|cbn; tauto]) || (exists 4; split; [lia|cbn; tauto]).
  - discriminate.
  - destruct (B FP) as [_ C].
    + intros q Hq. assert (Q : forall i, In i ks -> q i = q 3).
      { intros i Hi. cbn in Hi. destruct Hi as [<-|[<-|[<-|[<-|[<-|[]]]]]]; [apply Hq; cbn; tauto|apply Hq; cbn; tauto|reflexivity| |]; transitivity (q 1); [symmetry| |symmetry|]; apply Hq; cbn; tauto. }
      intros i j Hi Hj. rewrite (Q i Hi), (Q j Hj). reflexivity.
    + assert (Q : 4 * (1 + Z.of_nat (length prs) - Z.of_nat (length ks)) + Z.of_nat (length ks) <= 2 * Z.of_nat (length prs)); [|cbn in Q; lia]. apply C.
      exists (fun i => i <=? 2). intros i j H. assert (Q : 1 <= i <= 2 /\ 3 <= j <= 5) by (cbn in H; repeat (destruct H as [H|H]; [injection H as <- <-; lia|]); destruct H). lia.
Qed.
End Plan.
