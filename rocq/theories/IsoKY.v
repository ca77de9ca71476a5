(** * IsoKY: the walk through the inner faces at the root of a component whose inner root edges are hidden. *)
From Coq Require Import ZifyBool Permutation.
From Verif Require Import Base BaseP GraphRec GraphM GraphSpec GSimp LinkP GraphP GraphP2 GraphP3 ListM ListSpec DFSM DFSSpec DFSP TestM TestSpec TestP TestP3 EmbM EmbSpec EmbP EmbP2 FaceP GeoP EmbInv EmbStep EmbTree EmbWalk EmbOrient EmbJoin FanP IsoM IsoP1 IsoO2 IsoX IsoX2 IsoX3 PlV PlV3 PlI IsoKI IsoKX.

(** ** The next kept element of a cyclic list *)
Inductive hk (f : Z -> bool) (l : list Z) : Z -> Z -> Prop :=
| hk1 u : f (cnext l u) = true -> hk f l u (cnext l u)
| hkS u v : f (cnext l u) = false -> hk f l (cnext l u) v -> hk f l u v.
Lemma hk_hd f u m l' : l' = u :: m -> NoDup l' -> f u = true -> forall x v, hk f l' x v -> forall m1 m2, m = m1 ++ m2 -> cnext l' x = hd u m2 -> hd u (filter f m2) = v.
Proof.
  intros El Nd Fu x v H. induction H as [x Hx|x v Hx H IH]; intros m1 m2 Em Ec.
  - rewrite Ec in *. destruct m2 as [|y m2]; [reflexivity|]. cbn [hd filter] in *. now rewrite Hx.
  - rewrite Ec in *. destruct m2 as [|y m2]; cbn [hd] in *; [congruence|]. cbn [filter]. rewrite Hx. apply (IH (m1 ++ [y])); [rewrite Em, <- app_assoc; reflexivity|].
    assert (E2 : l' = (u :: m1) ++ y :: m2) by (rewrite El, Em; reflexivity). rewrite E2 in *. rewrite (cnext_split _ _ _ Nd). reflexivity.
Qed.
Lemma hk_filter f l u v : NoDup l -> In u l -> f u = true -> hk f l u v -> cnext (filter f l) u = v.
Proof.
  intros Nd Hu Fu H. destruct (in_split _ _ Hu) as (l1 & l2 & E). set (l' := u :: l2 ++ l1).
  assert (Nd' : NoDup ((u :: l2) ++ l1)). { apply (Permutation_NoDup (Permutation_app_comm l1 (u :: l2))). now rewrite <- E. }
  assert (K : forall x, In x l -> cnext l' x = cnext l x).
  { intros x Hx. unfold l'. change (u :: l2 ++ l1) with ((u :: l2) ++ l1). rewrite E. symmetry. apply cnext_turn; [exact Nd'|]. rewrite E, !in_app_iff in Hx. rewrite in_app_iff. tauto. }
  assert (H' : forall x v, hk f l x v -> In x l -> hk f l' x v).
  { clear H. intros x v0 H. induction H as [x Hx|x v0 Hx H IH]; intros Ix; rewrite <- (K x Ix) in *; [now constructor|]. apply hkS; [auto|]. apply IH. rewrite (K x Ix). now apply cnext_in. }
  specialize (H' u v H Hu). assert (Hd := hk_hd f u (l2 ++ l1) l' eq_refl Nd' Fu u v H' [] (l2 ++ l1) eq_refl).
  assert (Fd : NoDup (filter f (l1 ++ u :: l2))) by (rewrite <- E; now apply NoDup_filter). rewrite filter_app in Fd. cbn [filter] in Fd. rewrite Fu in Fd. rewrite E, filter_app. cbn [filter]. rewrite Fu. rewrite (cnext_split _ _ _ Fd). rewrite <- Hd; [rewrite filter_app; destruct (filter f l2); [cbn [app hd]; destruct (filter f l1); reflexivity|reflexivity]|].
  unfold l'. change (u :: l2 ++ l1) with ([] ++ u :: (l2 ++ l1)). rewrite cnext_split by exact Nd'. reflexivity.
Qed.

Section Y.
Variables (g0 : graph) (kids : Z -> list Z).
Hypothesis St : static g0 kids.
Local Notation N := (gN g0).
Local Notation p := (viParent (gVI g0)).
Local Notation prim := (prim (gN g0)).
Local Notation geo := (geo (gN g0) (viParent (gVI g0))).
Local Notation act := (act g0).
Local Notation vsof := (vsof (gN g0)).
Local Notation iface := (iface (gN g0)).
Variables (a : est) (d : Z) (L : list Z).
Local Notation s := (eV a).
Local Notation R := (gN g0 + d).
Local Notation src := (src s).
Hypothesis G : geo NIL [] s.
Hypothesis Ad : act s d.
Hypothesis LW : Lw g0 s R L.
Local Notation G0 := (g_base _ _ _ _ _ G).
Variables (D : Z -> bool) (b : est).
Hypothesis Tu : turned a D b.
Hypothesis DT : forall x, In x (vsof s R) -> D x = true.
Local Notation Ab := (adj (eV b)).
Hypothesis Lf : forall x e, In e (adj s x) -> nb s e <> x.

Lemma Ab_rot x : In x (vsof s R) -> Ab x = rot s x.
Proof. intros Hx. rewrite (tu_adj _ _ _ Tu). unfold EmbOrient.dlist. now rewrite DT. Qed.
(** [u] follows [t] in the reverse of a face *)
Definition fp (t u : Z) : Prop := In t (adj s (src t)) /\ In u (Ab (nb s t)) /\ cnext (Ab (nb s t)) u = twin t.
Fixpoint fch (t : Z) (l : list Z) : Prop := match l with [] => True | u :: r => fp t u /\ fch u r end.
Lemma fp_face f1 f2 : inc N s R f1 -> stp s f1 = f2 -> fp (twin f2) (twin f1).
Proof.
  intros I E. pose proof (closed_of g0 _ _ _ _ G (KR g0 a d Ad) (proj2 (proj2 Ad))) as Cl. destruct (inc_nb N p s R f1 G0 Cl I) as [H1 H2]. destruct (arc_st N p s _ f1 G0 (proj2 I)) as (H3 & H4 & H5). rewrite E in *.
  destruct (arc_st N p s _ f2 G0 H3) as (_ & _ & H6). unfold fp, PlV.src. rewrite !twin_invol. fold (src f2). rewrite H4. split; [auto|]. rewrite Ab_rot by auto. split; [now apply in_rot|]. exact E.
Qed.
(** the reverse of a face at the root *)
Definition inner (F : list Z) : list Z := map twin (rev (removelast (tl F))).
Lemma fch_app t l u : fch t (l ++ [u]) <-> fch t l /\ fp (last l t) u.
Proof. revert t. induction l as [|x l IH]; intros t; cbn [app fch]; [cbn; tauto|]. rewrite IH. replace (last (x :: l) t) with (last l x); [tauto|]. clear. revert x t. induction l as [|y l IH]; intros x t; [reflexivity|]. change (last (y :: l) x = last (y :: l) t). destruct l; [reflexivity|]. change (last (z :: l) x = last (z :: l) t). clear. revert z. induction l; intros z; [reflexivity|apply IHl]. Qed.
Lemma fch_rev : forall F q, fchain (stp s) F q -> (forall e, In e F -> inc N s R e) -> F <> [] -> fch (twin q) (map twin (rev F)).
Proof.
  induction F as [|f1 F IH]; intros q C Hi Ne; [congruence|]. destruct C as [C1 C2]. cbn [rev]. rewrite map_app. cbn [map]. apply fch_app. destruct F as [|f2 F].
  - cbn [rev map fch hd last] in *. split; [auto|]. apply fp_face; [apply Hi; now left|auto].
  - split; [apply IH; [auto|intros e He; apply Hi; now right|discriminate]|]. cbn [hd] in C1. replace (last (map twin (rev (f2 :: F))) (twin q)) with (twin f2); [apply fp_face; [apply Hi; now left|auto]|]. cbn [rev]. rewrite map_app. cbn [map]. now rewrite last_snoc.
Qed.
Lemma face_inner r F : In r (adj s R) -> iface s R r F -> exists r', F = r :: removelast (tl F) ++ [twin r'] /\ In r' (adj s R) /\ cnext (rot s R) r' = r /\ fch r' (inner F ++ [twin r]) /\
  rev (tl (map src F)) = nb s r' :: map (nb s) (inner F) /\ NoDup (nb s r' :: map (nb s) (inner F)) /\ ~ In R (nb s r' :: map (nb s) (inner F)) /\ (forall t, In t (inner F) -> In t (adj s (src t)) /\ src t <> R /\ nb s t <> R /\ In (nb s t) (vsof s R)).
Proof.
  intros Hr I. pose proof (closed_of g0 _ _ _ _ G (KR g0 a d Ad) (proj2 (proj2 Ad))) as Cl. pose proof (if_cl _ _ _ _ _ I) as [NF C]. assert (Hi := if_in _ _ _ _ _ I).
  pose proof (fchain_last _ _ _ C NF) as EL. rewrite (if_hd _ _ _ _ _ I) in EL. assert (Il := Hi _ (last_in _ NIL NF)). destruct (arc_st N p s _ _ G0 (proj2 Il)) as (S1 & S2 & S3). rewrite EL in S2. rewrite (arc_src N p s _ r G0 Hr) in S2.
  assert (Nl : last F NIL <> r). { intros Q. apply (Lf R r Hr). rewrite <- Q at 1. now rewrite <- S2. }
  destruct F as [|r0 F]; [congruence|]. pose proof (if_hd _ _ _ _ _ I) as Q0. cbn [hd] in Q0. subst r0. destruct (list_snoc F) as [->|(F2 & l & ->)]; [cbn in Nl; congruence|].
  assert (El : last (r :: F2 ++ [l]) NIL = l) by (change (r :: F2 ++ [l]) with ((r :: F2) ++ [l]); apply last_snoc). rewrite El in *. cbn [tl]. rewrite removelast_last.
  exists (twin l). rewrite twin_invol. split; [reflexivity|]. rewrite <- S2 in S3. split; [auto|]. split; [unfold stp, fstep in EL; now rewrite <- S2 in EL|].
  pose proof (if_nd _ _ _ _ _ I) as Nd. cbn [map] in Nd. rewrite (arc_src N p s _ r G0 Hr) in Nd. apply NoDup_cons_iff in Nd. destruct Nd as [NR Nd].
  assert (En : map src (F2 ++ [l]) = rev (nb s (twin l) :: map (nb s) (inner (r :: F2 ++ [l])))).
  { unfold inner. cbn [tl]. rewrite removelast_last. rewrite map_map. cbn [rev]. rewrite <- map_rev, rev_involutive, map_app. reflexivity. }
  split; [|split; [|split; [|split]]].
  - unfold inner. cbn [tl]. rewrite removelast_last. destruct C as [C1 C2]. cbn [hd] in C2.
    assert (Q : fchain (stp s) (r :: F2) l). { change (r :: F2 ++ [l]) with ((r :: F2) ++ [l]) in C1, C2. assert (C : fchain (stp s) ((r :: F2) ++ [l]) r) by (split; assumption). apply fchain_app in C. exact (proj1 C). }
    pose proof (fch_rev _ _ Q) as K. cbn [rev] in K. rewrite map_app in K. apply K; [|discriminate]. intros e He. apply Hi. change (r :: F2 ++ [l]) with ((r :: F2) ++ [l]). apply in_app_iff. auto.
  - cbn [map tl]. rewrite En, rev_involutive. reflexivity.
  - rewrite En in Nd. apply NoDup_rev in Nd. now rewrite rev_involutive in Nd.
  - intros Q. apply NR. rewrite En. now apply -> in_rev.
  - intros t Ht. unfold inner in Ht. cbn [tl] in Ht. rewrite removelast_last in Ht. apply in_map_iff in Ht. destruct Ht as (f & <- & Hf). apply in_rev in Hf. assert (If : inc N s R f) by (apply Hi; right; apply in_app_iff; auto). destruct (arc_st N p s _ f G0 (proj2 If)) as (Q1 & Q2 & Q3).
    unfold PlV.src. rewrite !twin_invol. fold (src f). split; [exact Q3|]. assert (Sf : src f <> R) by (intros Q; apply NR; rewrite <- Q; apply in_map, in_app_iff; auto). split; [|split; [auto|apply If]].
    rewrite <- Q2. intros Q. apply NR. rewrite <- Q. (* the next arc is in F2 ++ [l] *)
    assert (Hn : In (stp s f) (F2 ++ [l])). { destruct C as [_ C]. apply in_split in Hf. destruct Hf as (f1 & f2 & ->). rewrite <- app_assoc in C. apply fchain_app in C. destruct C as [_ [C _]]. rewrite C. cbn [app]. destruct f2; cbn [app hd]; apply in_app_iff; [right; now left|left; apply in_app_iff; right; right; now left]. }
    now apply in_map.
Qed.

(** ** All the inner faces *)
Variables (Fs : list (list Z)).
Hypothesis HFs : Forall2 (iface s R) (tl (rot s R)) Fs.
Variables (ea eb : Z) (mid : list Z).
Hypothesis ER : rot s R = ea :: mid ++ [eb].
Local Notation A := (adj_without Ab mid).
Local Notation keep := (fun x => negb (existsb (fun e => (x =? e) || (x =? twin e)) mid)).
Definition ws : list Z := ea :: concat (map inner Fs).
Lemma mid_adj r : In r (rot s R) -> In r (adj s R).
Proof. apply in_rot. Qed.
Lemma keep_in t : In t (adj s (src t)) -> src t <> R -> nb s t <> R -> keep t = true /\ keep (twin t) = true.
Proof.
  intros Ht Ns Nn. assert (K : forall x, In x mid -> src x = R) by (intros x Hx; apply (arc_src N p s); [exact G0|apply mid_adj; rewrite ER; right; apply in_app_iff; auto]).
  assert (K1 : ~ In t mid) by (intros Q; apply K in Q; auto). assert (K2 : ~ In (twin t) mid). { intros Q. apply K in Q. unfold PlV.src in Q. rewrite twin_invol in Q. auto. }
  rewrite !keep_iff, twin_invol. auto.
Qed.
Lemma keep_ea : keep ea = true /\ keep (twin ea) = true.
Proof.
  assert (Nd : NoDup (rot s R)) by apply rot_nodup, (g_nodup _ _ _ G0). rewrite ER in Nd. apply NoDup_cons_iff in Nd. rewrite !keep_iff, twin_invol.
  assert (K1 : ~ In ea mid) by (rewrite in_app_iff in Nd; tauto). assert (K2 : ~ In (twin ea) mid). { intros Q. assert (He : In ea (adj s R)) by (apply mid_adj; rewrite ER; now left). assert (Hq : In (twin ea) (adj s R)) by (apply mid_adj; rewrite ER; right; apply in_app_iff; auto). pose proof (arc_src N p s _ _ G0 Hq) as Q2. unfold PlV.src in Q2. rewrite twin_invol in Q2. now apply (Lf R ea). }
  tauto.
Qed.
Lemma A_def x : A x = filter keep (Ab x).
Proof. reflexivity. Qed.
Local Notation pvA t u := (In t%Z (A (src t%Z)) /\ In u%Z (A (nb s t%Z)) /\ cnext (A (nb s t%Z)) u%Z = twin t%Z).
(** where the walk stands: [t] is the last arc walked, [r] the arc of the root to the same vertex *)
Definition at_r (t r : Z) : Prop := In t (adj s (src t)) /\ keep t = true /\ keep (twin t) = true /\ nb s t = nb s r /\ (r = t \/ keep (twin r) = false /\ In (twin r) (Ab (nb s t)) /\ hk keep (Ab (nb s t)) (twin r) (twin t)).
Lemma Ab_in x e : In e (Ab x) <-> In e (adj s x).
Proof. exact (Kt_same a D b Tu x e). Qed.
Lemma Ab_nd x : NoDup (Ab x).
Proof. rewrite (tu_adj _ _ _ Tu). unfold EmbOrient.dlist. destruct (D x); [apply rot_nodup|]; apply (g_nodup _ _ _ G0). Qed.
Fixpoint wchA (t : Z) (l : list Z) : Prop := match l with [] => True | u :: r => pvA t u /\ wchA u r end.
Lemma wchA_app t l m : wchA t (l ++ m) <-> wchA t l /\ wchA (last l t) m.
Proof. revert t. induction l as [|x l IH]; intros t; cbn [app wchA]; [cbn; tauto|]. rewrite IH. replace (last (x :: l) t) with (last l x); [tauto|]. clear. revert x t. induction l as [|y l IH]; intros x t; [reflexivity|]. change (last (y :: l) x = last (y :: l) t). destruct l; [reflexivity|]. change (last (z :: l) x = last (z :: l) t). clear. revert z. induction l; intros z; [reflexivity|apply IHl]. Qed.
Lemma first_step t r u : at_r t r -> fp r u -> keep u = true -> pvA t u.
Proof.
  intros (T1 & T2 & T3 & T4 & T5) (U1 & U2 & U3) Ku. rewrite <- T4 in *. rewrite !A_def. split; [apply filter_In; split; [now apply Ab_in|auto]|]. split; [apply filter_In; auto|].
  apply hk_filter; auto; [apply Ab_nd|]. destruct T5 as [->|(T5 & T6 & T7)]; [rewrite <- U3; apply hk1; rewrite U3; auto|]. apply hkS; rewrite U3; auto.
Qed.
Lemma inner_chain : forall l t, fch t l -> keep t = true -> keep (twin t) = true -> (forall u, In u l -> keep u = true /\ keep (twin u) = true) -> wchA t l.
Proof.
  induction l as [|u l IH]; intros t C K1 K2 H; [exact I|]. destruct C as [C1 C2]. destruct (H u (or_introl eq_refl)) as [Hu1 Hu2]. split; [|apply IH; auto; intros; apply H; now right].
  apply (first_step t t); auto. destruct C1 as (U1 & U2 & U3). repeat split; auto.
Qed.
Lemma one_face t r' r F : at_r t r' -> In r mid \/ r = eb -> In r' (adj s R) -> In r (adj s R) -> fch r' (inner F ++ [twin r]) -> (forall u, In u (inner F) -> keep u = true /\ keep (twin u) = true) ->
  wchA t (inner F) /\ (r = eb -> nb s (last (inner F) t) = nb s r) /\ (In r mid -> at_r (last (inner F) t) r).
Proof.
  intros H Hr Ar' Ar C K. apply fch_app in C. destruct C as [C1 C2]. assert (Hk : In r mid -> keep (twin r) = false).
  { intros Q. apply not_true_iff_false. rewrite keep_iff, twin_invol. tauto. }
  assert (En : forall x, fp x (twin r) -> nb s x = nb s r).
  { intros x (_ & X2 & _). apply Ab_in in X2. destruct (g_twins _ _ _ G0 _ _ Ar) as [_ Q]. destruct (g_twins _ _ _ G0 _ _ X2) as [Q1 _]. rewrite twin_invol in Q1. auto. }
  pose proof H as (T1 & T2 & T3 & T4 & T5).
  destruct (inner F) as [|u l] eqn:E.
  - cbn [last wchA] in *. split; [auto|]. pose proof (En _ C2) as Er. split; [intros _; congruence|]. intros Hm. split; [auto|]. split; [auto|]. split; [auto|]. split; [congruence|]. right. split; [auto|]. destruct C2 as (X1 & X2 & X3). rewrite <- T4 in *. split; [auto|].
    destruct T5 as [->|(T5 & T6 & T7)]; [rewrite <- X3; apply hk1; rewrite X3; auto|]. apply hkS; rewrite X3; auto.
  - destruct C1 as [C1 C3]. destruct (K u (or_introl eq_refl)) as [Ku1 Ku2]. assert (W1 : pvA t u) by (now apply (first_step t r')). assert (W2 : wchA u l) by (apply inner_chain; auto; intros; apply K; now right).
    split; [split; auto|]. set (q := last (u :: l) t) in *. assert (Eq : last (u :: l) r' = q). { unfold q. clear. destruct l; [reflexivity|]. change (last (z :: l) r' = last (z :: l) t). revert z. induction l; intros z; [reflexivity|apply IHl]. } rewrite Eq in C2.
    pose proof (En _ C2) as Er. split; [auto|]. intros Hm. assert (Iq : In q (u :: l)) by (apply last_in; discriminate). destruct (K q Iq) as [Kq1 Kq2]. destruct C2 as (X1 & X2 & X3).
    split; [auto|]. split; [auto|]. split; [auto|]. split; [auto|]. right. split; [auto|]. split; [auto|]. rewrite <- X3. apply hk1. rewrite X3. auto.
Qed.
Lemma faces_walk : forall rs fs r' t, Forall2 (iface s R) (rs ++ [eb]) fs -> at_r t r' -> (exists pre, rot s R = pre ++ r' :: rs ++ [eb]) -> incl rs mid ->
  wchA t (concat (map inner fs)) /\ nb s (last (concat (map inner fs)) t) = nb s eb /\ sub (nb s t :: map (nb s) (concat (map inner fs))) (concat (map (fun F => rev (tl (map src F))) fs)).
Proof.
  assert (NdR : NoDup (rot s R)) by apply rot_nodup, (g_nodup _ _ _ G0).
  assert (LA : forall (l m : list Z) t, last (l ++ m) t = last m (last l t)). { induction l as [|x l IHl]; intros m t; [reflexivity|]. destruct l as [|y l]; [destruct m; [reflexivity|]; cbn [app]; change (last (z :: m) t = last (z :: m) x); clear; revert z; induction m; intros z; [reflexivity|apply IHm]|]. change (last ((x :: y :: l) ++ m) t) with (last ((y :: l) ++ m) t). rewrite IHl. reflexivity. }
  assert (One : forall r' r F pre post, iface s R r F -> rot s R = pre ++ r' :: r :: post -> In r (adj s R) /\ In r' (adj s R) /\ fch r' (inner F ++ [twin r]) /\ rev (tl (map src F)) = nb s r' :: map (nb s) (inner F) /\ (forall u, In u (inner F) -> keep u = true /\ keep (twin u) = true)).
  { intros r' r F pre post I Er. assert (Ar : In r (adj s R)) by (apply in_rot; rewrite Er; apply in_app_iff; right; right; now left). assert (Ar' : In r' (adj s R)) by (apply in_rot; rewrite Er; apply in_app_iff; right; now left).
    destruct (face_inner r F Ar I) as (r2 & _ & X2 & X3 & X4 & X5 & _ & _ & X8). assert (r2 = r').
    { apply (cnext_inj (rot s R)); auto; [now apply in_rot|now apply in_rot|]. rewrite X3, Er. rewrite Er in NdR. now rewrite (cnext_split _ _ _ NdR). }
    subst r2. split; [auto|]. split; [auto|]. split; [auto|]. split; [auto|]. intros u Hu. destruct (X8 u Hu) as (Y1 & Y2 & Y3 & _). now apply keep_in. }
  induction rs as [|r rs IH]; intros fs r' t HF At (pre & Er) Inc.
  - cbn [app] in HF. inversion HF as [|? F ? fs' H1 H2]; subst. inversion H2; subst. cbn [map concat]. rewrite !app_nil_r.
    destruct (One r' eb F pre [] H1 Er) as (X1 & X2 & X3 & X4 & X5). destruct (one_face t r' eb F At (or_intror eq_refl) X2 X1 X3 X5) as (Y1 & Y2 & _). split; [auto|]. split; [auto|]. rewrite X4. destruct At as (_ & _ & _ & -> & _). apply sub_refl.
  - cbn [app] in HF. inversion HF as [|? F ? fs' H1 H2]; subst. cbn [map concat].
    destruct (One r' r F pre (rs ++ [eb]) H1 Er) as (X1 & X2 & X3 & X4 & X5). assert (Hm : In r mid) by (apply Inc; now left). destruct (one_face t r' r F At (or_introl Hm) X2 X1 X3 X5) as (Y1 & _ & Y2). specialize (Y2 Hm).
    destruct (IH fs' r (last (inner F) t) H2 Y2) as (Z1 & Z2 & Z3); [exists (pre ++ [r']); rewrite Er, <- app_assoc; reflexivity|intros x Hx; apply Inc; now right|].
    split; [apply wchA_app; auto|]. split; [rewrite LA; auto|]. rewrite X4. rewrite map_app. destruct At as (_ & _ & _ & -> & _). cbn [app]. constructor. apply sub_app; [apply sub_refl|]. exact (sub_trans _ _ _ (sub_drop [_] _) Z3).
Qed.
End Y.
