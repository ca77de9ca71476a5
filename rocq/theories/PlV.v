(** * PlV: the external face of a component, arc by arc, and the faces at its root; what merging,
    mirroring and adding an edge do to them. *)
From Coq Require Import ZifyBool Permutation.
From Verif Require Import Base BaseP GraphRec GraphM GraphSpec GSimp LinkP GraphP GraphP2 ListM ListSpec ListP DFSM DFSSpec TestP TestP3 EmbM EmbSpec EmbP FaceP GeoP GeoP2 EmbInv EmbStep EmbTree EmbWalk.

Definition stp (s : gv) : Z -> Z := fstep (nb s) (rot s).
Definition src (s : gv) (e : Z) : Z := nb s (twin e).

Lemma fclosed_step f l e : fclosed f l -> In e l -> In (f e) l.
Proof.
  intros [N C] He. apply in_split in He. destruct He as (l1 & l2 & ->). apply fchain_app in C. destruct C as [_ [C _]]. rewrite C.
  destruct l2 as [|y l2]; [cbn [hd]; now apply hd_in|]. cbn [hd]. apply in_app_iff. right. right. now left.
Qed.
Lemma fclosed_share f l l' e : fclosed f l -> fclosed f l' -> In e l -> In e l' -> incl l l'.
Proof.
  intros C C' He He'. apply in_split in He. destruct He as (l1 & l2 & ->). apply fclosed_rot in C.
  assert (K : forall m q, fchain f m q -> In (hd q m) l' -> incl m l').
  { intros m. induction m as [|x m IH]; intros q C1 H; [intros y []|]. destruct C1 as [C1 C2]. cbn [hd] in H. intros y [<-|Hy]; [auto|]. revert y Hy. apply (IH q); [auto|]. rewrite <- C1. now apply fclosed_step. }
  destruct C as [_ C]. specialize (K _ _ C). cbn [app hd] in K. intros x Hx. apply K; [auto|]. apply in_app_iff in Hx. cbn [app In]. rewrite in_app_iff. destruct Hx as [Hx|[Hx|Hx]]; auto.
Qed.
Lemma fclosed_uniq f l l' : fclosed f l -> fclosed f l' -> hd NIL l = hd NIL l' -> NoDup l -> NoDup l' -> l = l'.
Proof.
  intros [N C] [N' C'] E Nd Nd'. destruct l as [|q l]; [congruence|]. destruct l' as [|q' l']; [congruence|]. cbn [hd] in *. subst q'. f_equal.
  apply NoDup_cons_iff in Nd, Nd'. destruct Nd as [Nd _], Nd' as [Nd' _]. cbn [fchain] in C, C'. destruct C as [C1 C], C' as [C1' C'].
  assert (E : hd q l = hd q l') by congruence. clear N N' C1 C1'. revert l' E C' Nd'. induction l as [|x l IH]; intros [|y l'] E C' Nd'; auto.
  - cbn [hd] in E. subst y. destruct Nd'. now left.
  - cbn [hd] in E. subst x. destruct Nd. now left.
  - cbn [hd] in E. subst y. f_equal. cbn [fchain] in C, C'. destruct C as [C1 C], C' as [C1' C']. apply IH; auto; [intros Q; apply Nd; now right|congruence|intros Q; apply Nd'; now right].
Qed.

Section V.
Variables (N : Z) (p : Z -> Z).
Local Notation geob := (geob N p).
Local Notation isroot := (isroot N).
Local Notation vsof := (vsof N).
Local Notation prim := (prim N).

(** Arcs of the component of R. *)
Definition inc (s : gv) (R e : Z) : Prop := In (src s e) (vsof s R) /\ In e (adj s (src s e)).
Record oface (s : gv) (R : Z) (F : list Z) : Prop := {
  of_cl : fclosed (stp s) F; of_nd : NoDup F; of_hd : hd NIL F = hd NIL (rot s R);
  of_in : forall e, In e F -> inc s R e; of_st : forall e, In e F -> e = hd NIL (rot s (src s e)) }.
Record iface (s : gv) (R r : Z) (F : list Z) : Prop := {
  if_cl : fclosed (stp s) F; if_nd : NoDup (map (src s) F); if_hd : hd NIL F = r; if_in : forall e, In e F -> inc s R e }.
(** The external face of a component that is being changed: the part [pre] is about to disappear. *)
Record ov (s : gv) (R : Z) (pre suf : list Z) : Prop := {
  ov_cl : fclosed (stp s) (pre ++ suf); ov_nd : NoDup (pre ++ suf); ov_pre : starts s R pre; ov_ne : suf <> [];
  ov_np : NoDup (src s (hd NIL suf) :: map (src s) pre); ov_in : forall e, In e (pre ++ suf) -> inc s R e; ov_st : forall e, In e suf -> e = hd NIL (rot s (src s e));
  ov_R : ~ In R (map (src s) (tl pre ++ suf)) }.

(** ** Sources and far ends *)
Lemma arc_src s x e : geob s -> In e (adj s x) -> src s e = x.
Proof. intros G He. unfold src. apply (g_twins _ _ _ G _ _ He). Qed.
Lemma arc_st s x e : geob s -> In e (adj s x) -> In (stp s e) (adj s (nb s e)) /\ src s (stp s e) = nb s e /\ In (twin e) (adj s (nb s e)).
Proof.
  intros G He. destruct (g_twins _ _ _ G _ _ He) as [T1 T2]. assert (K : In (stp s e) (adj s (nb s e))).
  { apply in_rot. unfold stp, fstep. apply cnext_in; [apply rot_nodup, (g_nodup _ _ _ G)|now apply in_rot]. }
  split; [auto|]. split; [now apply arc_src|auto].
Qed.
Lemma face_nb s F : geob s -> (forall e, In e F -> exists x, In e (adj s x)) -> fclosed (stp s) F -> map (nb s) F = tl (map (src s) F) ++ [src s (hd NIL F)].
Proof.
  intros G Hi [Ne C]. destruct F as [|q F]; [congruence|]. cbn [hd] in *.
  assert (K : forall l q, fchain (stp s) l q -> l <> [] -> (forall e, In e l -> exists x, In e (adj s x)) -> map (nb s) l = tl (map (src s) l) ++ [src s q]).
  { clear - G. intros l. revert G. induction l as [|x l IH]; intros G q C N' Hi; [congruence|]. destruct C as [C1 C2]. destruct (Hi x (or_introl eq_refl)) as [y Hy].
    destruct (arc_st s y x G Hy) as (_ & K & _). cbn [map tl]. destruct l as [|z l].
    - cbn [hd] in C1. cbn [map app]. congruence.
    - rewrite (IH G q); [|auto|discriminate|intros; apply Hi; now right]. cbn [hd] in C1. cbn [map tl app]. congruence. }
  apply K; auto.
Qed.
Lemma src_inj_st s l : geob s -> (forall e, In e l -> e = hd NIL (rot s (src s e))) -> NoDup l -> NoDup (map (src s) l).
Proof.
  intros G Hs Nd. induction l as [|e l IH]; [constructor|]. apply NoDup_cons_iff in Nd. cbn [map]. constructor.
  - intros I. apply in_map_iff in I. destruct I as (e' & E & I). apply (proj1 Nd). rewrite (Hs e (or_introl eq_refl)), <- E, <- (Hs e' (or_intror I)). auto.
  - apply IH; [|tauto]. intros; apply Hs; now right.
Qed.
Lemma oface_nd s R F : geob s -> oface s R F -> NoDup (map (src s) F).
Proof. intros G O. apply src_inj_st; auto; apply O. Qed.
Lemma oface_uniq s R F F' : oface s R F -> oface s R F' -> F = F'.
Proof. intros O O'. apply (fclosed_uniq (stp s)); try apply O; try apply O'. now rewrite (of_hd _ _ _ O), (of_hd _ _ _ O'). Qed.
Lemma oface_ne s R F : oface s R F -> F <> [].
Proof. intros O. apply O. Qed.
Lemma oface_R s R F : geob s -> adj s R <> [] -> oface s R F -> src s (hd NIL F) = R.
Proof. intros G NR O. rewrite (of_hd _ _ _ O). apply arc_src; auto. apply in_rot, hd_in. now apply rot_ne. Qed.
Lemma oface_srcs s R F : geob s -> adj s R <> [] -> oface s R F -> map (src s) F = R :: tl (map (src s) F).
Proof. intros G NR O. pose proof (oface_R s R F G NR O) as E. pose proof (oface_ne _ _ _ O). destruct F as [|q F]; [congruence|]. cbn [hd map tl] in *. now rewrite E. Qed.
Lemma oface_ov s R pre suf : geob s -> adj s R <> [] -> pre <> [] -> suf <> [] -> oface s R (pre ++ suf) -> ov s R pre suf.
Proof.
  intros G NR N1 N2 O. constructor; auto; try apply O.
  - split; [auto|]. rewrite <- (of_hd _ _ _ O). now rewrite hd_app.
  - pose proof (oface_nd _ _ _ G O) as Nd. rewrite map_app in Nd. destruct suf as [|q suf]; [congruence|]. cbn [map hd] in *. apply NoDup_mid in Nd. destruct Nd as [Nd Nq]. constructor; [|now apply NoDup_app_l in Nd]. intros Q. apply Nq. apply in_app_iff. auto.
  - intros e He. apply O. apply in_app_iff. auto.
  - pose proof (oface_nd _ _ _ G O) as Nd. pose proof (oface_R _ _ _ G NR O) as E. destruct pre as [|q pre]; [congruence|]. cbn [app hd tl] in *. apply NoDup_cons_iff in Nd. rewrite E in Nd. tauto.
Qed.
(** A face at the root other than the external one has no arc of the external one. *)
Lemma iface_out s R F0 r F : geob s -> oface s R F0 -> iface s R r F -> In r (adj s R) -> r <> hd NIL (rot s R) -> forall e, In e F -> ~ In e F0.
Proof.
  intros G O I Hr Nr e H1 H2. assert (In r F) by (rewrite <- (if_hd _ _ _ _ I); apply hd_in, I). pose proof (fclosed_share _ _ _ _ (if_cl _ _ _ _ I) (of_cl _ _ _ O) H1 H2 r H) as K.
  apply Nr. rewrite (of_st _ _ _ O r K). now rewrite (arc_src _ _ _ G Hr).
Qed.

(** ** Components that stay as they are *)
Lemma inc_nb s R e : geob s -> (forall x f, In x (vsof s R) -> In f (adj s x) -> In (nb s f) (vsof s R)) -> inc s R e -> In (nb s e) (vsof s R) /\ In (twin e) (adj s (nb s e)).
Proof. intros G Hc [H1 H2]. split; [eapply Hc; eauto|]. apply (arc_st s _ e G H2). Qed.
Lemma inc_st s R e : geob s -> (forall x f, In x (vsof s R) -> In f (adj s x) -> In (nb s f) (vsof s R)) -> inc s R e -> inc s R (stp s e).
Proof. intros G Hc I. destruct (inc_nb s R e G Hc I) as [H1 _]. destruct (arc_st s _ e G (proj2 I)) as (H2 & H3 & _). unfold inc. now rewrite H3. Qed.
Section Agree.
Variables (s t : gv) (R : Z).
Hypothesis G : geob s.
Hypothesis Hc : forall x f, In x (vsof s R) -> In f (adj s x) -> In (nb s f) (vsof s R).
Hypothesis A : agree N s t R.
Lemma ag_src e : inc s R e -> src t e = src s e.
Proof. intros I. destruct (inc_nb s R e G Hc I) as [H1 H2]. unfold src. apply (a_nb _ _ _ _ A _ _ H1 H2). Qed.
Lemma ag_rot x : In x (vsof s R) -> rot t x = rot s x.
Proof. intros Hx. unfold rot. now rewrite (a_adj _ _ _ _ A), (a_o _ _ _ _ A). Qed.
Lemma ag_stp e : inc s R e -> stp t e = stp s e.
Proof. intros I. destruct (inc_nb s R e G Hc I) as [H1 H2]. unfold stp, fstep. rewrite (a_nb _ _ _ _ A _ _ (proj1 I) (proj2 I)). now rewrite ag_rot. Qed.
Lemma ag_inc e : inc s R e -> inc t R e.
Proof. intros I. unfold inc. rewrite ag_src by auto. destruct I as [I1 I2]. rewrite (a_adj _ _ _ _ A) by auto. split; [|auto]. unfold GeoP.vsof in *. now rewrite (a_mem _ _ _ _ A). Qed.
Lemma ag_fclosed F : (forall e, In e F -> inc s R e) -> fclosed (stp s) F -> fclosed (stp t) F.
Proof. intros Hi [Ne C]. split; [auto|]. eapply fchain_ext; [|exact C]. intros e He. apply ag_stp. auto. Qed.
Lemma ag_map F : (forall e, In e F -> inc s R e) -> map (src t) F = map (src s) F.
Proof. intros Hi. apply map_ext_in. intros e He. apply ag_src. auto. Qed.
Lemma ag_oface F : oface s R F -> oface t R F.
Proof.
  intros O. constructor.
  - apply ag_fclosed; apply O.
  - apply O.
  - rewrite ag_rot by (now left). apply O.
  - intros e He. apply ag_inc. now apply O.
  - intros e He. pose proof (of_in _ _ _ O e He) as I. rewrite ag_src, ag_rot by (auto; apply I). now apply O.
Qed.
Lemma ag_iface r F : iface s R r F -> iface t R r F.
Proof.
  intros O. constructor.
  - apply ag_fclosed; apply O.
  - rewrite ag_map; apply O.
  - apply O.
  - intros e He. apply ag_inc. now apply O.
Qed.
End Agree.

(** ** Mirroring *)
Section Mirror.
Variables (s t : gv) (R : Z).
Hypothesis G : geob s.
Hypothesis Hc : forall x f, In x (vsof s R) -> In f (adj s x) -> In (nb s f) (vsof s R).
Hypotheses (En : nb t = nb s) (Ea : adj t = adj s) (EB : B t = B s).
Hypothesis Eo : forall x, In x (vsof s R) -> o t x = negb (o s x).
Lemma mi_rot x : In x (vsof s R) -> rot t x = rev (rot s x).
Proof. intros Hx. unfold rot. rewrite Ea, Eo by auto. destruct (o s x); cbn [negb]; [now rewrite rev_involutive|auto]. Qed.
Lemma mi_inc e : inc s R e -> inc t R (twin e).
Proof.
  intros I. destruct (inc_nb s R e G Hc I) as [H1 H2]. unfold inc, src. rewrite twin2, En, Ea. split; [|auto]. unfold GeoP.vsof, GeoP.mem in *. now rewrite EB.
Qed.
Lemma mi_stp e : inc s R e -> stp t (twin (stp s e)) = twin e.
Proof.
  intros I. destruct (inc_nb s R e G Hc I) as [H1 H2]. destruct (arc_st s _ e G (proj2 I)) as (H3 & H4 & _). unfold stp at 1, fstep. rewrite twin2, En. fold (src s (stp s e)). rewrite H4, mi_rot by auto.
  unfold stp, fstep. apply cnext_rev; [apply rot_nodup, (g_nodup _ _ _ G)|now apply in_rot].
Qed.
Lemma mi_fclosed F : (forall e, In e F -> inc s R e) -> fclosed (stp s) F -> fclosed (stp t) (mirror F).
Proof.
  intros Hi [Ne C]. split; [now apply mirror_ne|]. eapply fchain_mirror; [exact C|intros e He; apply mi_stp; auto|]. intros _.
  rewrite hd_mirror by auto. rewrite <- (fchain_last _ _ _ C Ne). apply mi_stp, Hi. now apply last_in.
Qed.
Lemma mi_src F : (forall e, In e F -> inc s R e) -> fclosed (stp s) F -> map (src t) (mirror F) = src s (hd NIL F) :: rev (tl (map (src s) F)).
Proof.
  intros Hi C. transitivity (rev (map (nb s) F)).
  - unfold mirror. rewrite map_map, <- map_rev. apply map_ext. intros e. unfold src. now rewrite twin2, En.
  - rewrite face_nb; auto; [now rewrite rev_app_distr|]. intros e He. exists (src s e). apply (Hi e He).
Qed.
Lemma mi_nodup F : NoDup F -> NoDup (mirror F).
Proof. intros H. apply (Permutation_NoDup (Permutation_sym (mirror_perm F))). apply FinFun.Injective_map_NoDup; [intros x y; apply twin_eq_inj|auto]. Qed.
Lemma mi_oface F : adj s R <> [] -> oface s R F -> oface t R (mirror F).
Proof.
  intros NR O. pose proof (oface_ne _ _ _ O) as Ne. constructor.
  - apply mi_fclosed; apply O.
  - apply mi_nodup, O.
  - rewrite hd_mirror, mi_rot by (auto; now left). pose proof (of_cl _ _ _ O) as [_ C]. pose proof (fchain_last _ _ _ C Ne) as L. rewrite (of_hd _ _ _ O) in L.
    assert (Il : inc s R (last F NIL)) by (apply O; now apply last_in). destruct (arc_st s _ _ G (proj2 Il)) as (H3 & H4 & H5).
    assert (E : nb s (last F NIL) = R). { rewrite <- H4, L. apply arc_src; auto. apply in_rot, hd_in. now apply rot_ne. }
    rewrite hd_rev. apply cnext_last_iff; [apply rot_nodup, (g_nodup _ _ _ G)|rewrite E in H5; now apply in_rot|]. unfold stp, fstep in L. now rewrite E in L.
  - intros e He. apply in_mirror in He. rewrite <- (twin2 e). apply mi_inc, O, He.
  - intros e He. apply in_mirror in He. pose proof (of_in _ _ _ O _ He) as I. destruct (inc_nb s R _ G Hc I) as [H1 H2]. destruct (arc_st s _ _ G (proj2 I)) as (H3 & H4 & H5). rewrite twin2 in *.
    unfold src at 1. rewrite En, mi_rot by auto. rewrite hd_rev. apply cnext_last_iff; [apply rot_nodup, (g_nodup _ _ _ G)|now apply in_rot|].
    pose proof (of_st _ _ _ O _ (fclosed_step _ _ _ (of_cl _ _ _ O) He)) as K. rewrite H4 in K. unfold stp, fstep in K. now rewrite twin2 in K.
Qed.
Lemma mi_iface r F : iface s R r F -> iface t R (twin (last F NIL)) (mirror F).
Proof.
  intros O. pose proof (if_cl _ _ _ _ O) as C. constructor.
  - apply mi_fclosed; auto; apply O.
  - rewrite mi_src by (auto; apply O). pose proof (if_nd _ _ _ _ O) as Nd. destruct F as [|q F]; [destruct C; congruence|]. cbn [map tl hd] in *. apply NoDup_cons_iff in Nd. constructor; [|apply NoDup_rev; tauto]. rewrite <- in_rev. tauto.
  - apply hd_mirror, C.
  - intros e He. apply in_mirror in He. rewrite <- (twin2 e). apply mi_inc. now apply O.
Qed.
End Mirror.
End V.
