(** * ObsP2: subdivisions and threads. *)
From Coq Require Import ZifyBool.
From Verif Require Import Base BaseP GraphRec GraphM GraphSpec GSimp LinkP GraphP GraphP2 GraphP3 GraphP5
  DFSM DFSSpec TestM TestSpec OrbitP ObsSpec ObsP.

Lemma choose_list {A B} (Q : A -> B -> Prop) l : (forall x, In x l -> exists y, Q x y) -> exists ys, Forall2 Q l ys.
Proof.
  induction l as [|a l IH]; intros H; [exists []; constructor|].
  destruct (H a) as (y & Hy); [now left|]. destruct IH as (ys & Hs); [intros; apply H; now right|]. exists (y :: ys). now constructor.
Qed.
Lemma F2_in_l {A B} (Q : A -> B -> Prop) l ys : Forall2 Q l ys -> forall x, In x l -> exists y, In y ys /\ Q x y.
Proof. induction 1 as [|a b l ys H F IH]; intros x []; [subst; exists b; split; [now left|auto]|]. destruct (IH x) as (y & ? & ?); auto. exists y; split; [now right|auto]. Qed.
Lemma F2_in_r {A B} (Q : A -> B -> Prop) l ys : Forall2 Q l ys -> forall y, In y ys -> exists x, In x l /\ Q x y.
Proof. induction 1 as [|a b l ys H F IH]; intros y []; [subst; exists a; split; [now left|auto]|]. destruct (IH y) as (x & ? & ?); auto. exists x; split; [now right|auto]. Qed.
Lemma F2_len {A B} (Q : A -> B -> Prop) l ys : Forall2 Q l ys -> length l = length ys.
Proof. induction 1; cbn; auto. Qed.
Lemma F2_mono {A B} (Q Q' : A -> B -> Prop) l ys : (forall x y, Q x y -> Q' x y) -> Forall2 Q l ys -> Forall2 Q' l ys.
Proof. intros H. induction 1; constructor; auto. Qed.

Lemma NoDup_app_inv {A} (l1 l2 : list A) : NoDup (l1 ++ l2) -> NoDup l1 /\ NoDup l2 /\ forall x, In x l1 -> In x l2 -> False.
Proof.
  induction l1 as [|a l1 IH]; cbn; intros H; [split; [constructor|auto]|].
  inversion H as [|? ? N1 N2]; subst. destruct (IH N2) as (A1 & A2 & A3). split.
  - constructor; auto. intros I. apply N1. apply in_or_app; auto.
  - split; auto. intros x [<-|Hx] Hy; [apply N1; apply in_or_app; auto|eauto].
Qed.
Lemma NoDup_app_intro {A} (l1 l2 : list A) : NoDup l1 -> NoDup l2 -> (forall x, In x l1 -> In x l2 -> False) -> NoDup (l1 ++ l2).
Proof.
  induction 1 as [|a l1 N1 N2 IH]; cbn; intros H2 D; auto. constructor; [|apply IH; eauto].
  intros I. apply in_app_or in I as [I|I]; eauto.
Qed.

Lemma removelast_split {A} (p : list A) a : In a (removelast p) -> exists l1 b l2, p = l1 ++ a :: b :: l2.
Proof.
  destruct p as [|x p] using rev_ind; [intros []|]. rewrite removelast_last. intros H. apply in_split in H as (l1 & l2 & ->).
  destruct l2 as [|y l2]; [exists l1, x, []; now rewrite <- app_assoc|exists l1, y, (l2 ++ [x])]. now rewrite <- app_assoc.
Qed.
Lemma split_removelast {A} (l1 l2 : list A) a b : removelast (l1 ++ a :: b :: l2) = l1 ++ a :: removelast (b :: l2).
Proof. rewrite removelast_app by discriminate. reflexivity. Qed.
Lemma succ_unique {A} (p : list A) a b y l1 l2 m1 m2 : NoDup (removelast p) -> p = l1 ++ a :: b :: l2 -> p = m1 ++ a :: y :: m2 -> b = y.
Proof.
  intros ND E1 E2. pose proof ND as ND2. rewrite E1, split_removelast in ND. rewrite E2, split_removelast in ND2.
  rewrite E1 in E2. clear E1. revert m1 ND2 E2. induction l1 as [|c l1 IH]; intros [|c' m1] ND2 E; cbn in *.
  - congruence.
  - injection E as -> E. inversion ND2 as [|? ? N _]; subst. exfalso; apply N. apply in_or_app. right; now left.
  - injection E as -> E. inversion ND as [|? ? N _]; subst. exfalso; apply N. apply in_or_app. right; now left.
  - injection E as -> E. inversion ND; inversion ND2; subst. eauto.
Qed.
Lemma flat_same {A B} (f : A -> list B) P : NoDup (flat_map f P) -> forall p p' x, In p P -> In p' P -> In x (f p) -> In x (f p') -> p = p'.
Proof.
  induction P as [|q P IH]; cbn; intros ND p p' x H H' I I'; [tauto|].
  apply NoDup_app_inv in ND as (_ & N2 & D). destruct H as [<-|H], H' as [<-|H']; auto.
  - exfalso. apply (D x); auto. apply in_flat_map; eauto.
  - exfalso. apply (D x); auto. apply in_flat_map; eauto.
  - eauto.
Qed.
Lemma flat_nodup {A B} (f : A -> list B) P p : NoDup (flat_map f P) -> In p P -> NoDup (f p).
Proof.
  induction P as [|q P IH]; cbn; intros ND []; apply NoDup_app_inv in ND as (N1 & N2 & _); subst; auto.
Qed.
Lemma bij_length (A B : list Z) (Q : Z -> Z -> Prop) : NoDup A -> NoDup B ->
  (forall a, In a A -> exists b, In b B /\ Q a b) -> (forall b, In b B -> exists a, In a A /\ Q a b) ->
  (forall a a' b, In a A -> In a' A -> Q a b -> Q a' b -> a = a') -> (forall a b b', In a A -> Q a b -> Q a b' -> b = b') ->
  length A = length B.
Proof.
  intros NA NB TA TB FA FB. apply Nat.le_antisymm.
  - apply (inj_rel_le Q); auto. intros a a' b Ha Ha' _. now apply FA.
  - apply (inj_rel_le (fun b a => Q a b)); auto. intros b b' a _ _ Ha. now apply FB.
Qed.

Section Pattern.
Variables (g : graph) (adj : Z -> list Z).
Hypothesis R : rep g adj.
Notation hv := (enbr g).
Variables (cs : list Z) (E : list (Z * Z)) (nb : Z -> list Z).
Hypothesis NDcs : NoDup cs.
Hypothesis NDE : NoDup E.
Hypothesis HE : forall u v, In (u, v) E -> In u cs /\ In v cs /\ u <> v /\ ~ In (v, u) E.
Hypothesis Hnb : forall c, In c cs -> NoDup (nb c) /\ forall v, In v (nb c) <-> In (c, v) E \/ In (v, c) E.
Notation proper := (proper g adj).
Notation deg2 := (deg2 adj).
Notation internals := (internals g).

Lemma internal_split p x : In x (internals p) -> exists l1 a b l2, p = l1 ++ a :: b :: l2 /\ hv a = x.
Proof. unfold ObsSpec.internals. intros H. apply in_map_iff in H as (a & <- & H). apply removelast_split in H as (l1 & b & l2 & ->). eauto 6. Qed.
Lemma internal_intro l1 a b l2 : In (hv a) (internals (l1 ++ a :: b :: l2)).
Proof. unfold ObsSpec.internals. apply in_map. rewrite split_removelast. apply in_or_app. right; now left. Qed.
Lemma internal_deg2 u p v x : proper u p v -> In x (internals p) -> deg2 x.
Proof. intros (_ & (_ & A & _) & _) H. apply internal_split in H as (l1 & a & b & l2 & -> & <-). now apply (A l1 a b l2). Qed.
Lemma path_mid u l1 a b l2 v : path g adj u (l1 ++ a :: b :: l2) v -> In b (adj (hv a)) /\ (exists w, In a (adj w)).
Proof. intros H. apply path_app in H as (w & _ & H). cbn [path] in H. destruct H as (H1 & H2 & _). eauto. Qed.

Lemma proper_internals_nodup u p v : u <> v -> proper u p v -> NoDup (internals p).
Proof.
  intros N H. pose proof H as (P & T & _). unfold ObsSpec.internals.
  assert (ND : NoDup (removelast p)).
  { pose proof (thr_nodup g adj p T) as ND. destruct p as [|x p] using rev_ind; [constructor|]. rewrite removelast_last.
    now apply NoDup_app_inv in ND. }
  assert (K : forall a a', In a (removelast p) -> In a' (removelast p) -> hv a = hv a' -> a = a').
  { intros a a' Ha Ha' Eh. apply removelast_split in Ha as (l1 & b & l2 & E1). apply removelast_split in Ha' as (m1 & y & m2 & E2).
    pose proof P as P1. rewrite E1 in P1. apply path_mid in P1 as (B1 & w & B2).
    pose proof P as P2. rewrite E2 in P2. apply path_mid in P2 as (B1' & w' & B2').
    destruct T as (_ & A & _). destruct (A _ _ _ _ E1) as [D ->]. destruct (nxt_ok g adj R _ _ B2 D) as (_ & _ & X).
    pose proof (arc_twin g adj R _ _ B2') as T'. rewrite <- Eh in T'. destruct (X _ T') as [Q|Q].
    - rewrite <- (twin_invol a), <- Q. apply twin_invol.
    - exfalso. apply N. eapply (proper_opposite g adj R u p v u p v a'); auto.
      + rewrite E2. apply in_or_app; right; now left.
      + rewrite Q, E1. apply in_or_app; right; right; now left. }
  clear -ND K. induction (removelast p) as [|a l IH]; cbn; [constructor|]. inversion ND; subst. constructor.
  - intros I. apply in_map_iff in I as (a' & E1 & I). assert (a' = a) by (apply K; auto; [now right|now left]). subst; tauto.
  - apply IH; auto. intros; apply K; auto; now right.
Qed.
Lemma proper_internals_disjoint u p v u' p' v' x : proper u p v -> proper u' p' v' -> In x (internals p) -> In x (internals p') ->
  (u = u' /\ v = v') \/ (u = v' /\ v = u').
Proof.
  intros H H' I I'. apply internal_split in I as (l1 & a & b & l2 & E1 & <-). apply internal_split in I' as (m1 & a' & b' & m2 & E2 & Eh).
  pose proof (proj1 H) as P. rewrite E1 in P. apply path_mid in P as (B1 & w & B2).
  pose proof (proj1 H') as P'. rewrite E2 in P'. apply path_mid in P' as (B1' & w' & B2').
  destruct H as (HP & HT & HD). destruct HT as (T1 & A & T2). destruct (A _ _ _ _ E1) as [D Eb].
  assert (H : proper u p v) by (split; [auto|split; [split; auto|auto]]).
  destruct (nxt_ok g adj R _ _ B2 D) as (_ & _ & X).
  pose proof (arc_twin g adj R _ _ B2') as T'. rewrite Eh in T'. destruct (X _ T') as [Q|Q].
  - assert (a = a') by (rewrite <- (twin_invol a), <- Q; apply twin_invol). subst a'. left.
    assert (Epp : p = p') by (eapply (proper_same g adj R); [exact H|exact H'| |]; [rewrite E1|rewrite E2]; apply in_or_app; right; now left).
    rewrite <- Epp in H'. exact (proper_same_ends g adj R _ _ _ _ _ H H').
  - right. destruct (proper_opposite g adj R u' p' v' u p v a' H' H) as (_ & ? & ?); auto.
    + rewrite E2. apply in_or_app; right; now left.
    + rewrite Q, <- Eb, E1. apply in_or_app; right; right; now left.
Qed.

Lemma sound : (forall c, In c cs -> length (adj c) = length (nb c) /\ ~ deg2 c) ->
  (forall v, ~ In v cs -> adj v = [] \/ deg2 v) ->
  (forall u v, In (u, v) E -> exists l, proper u l v) ->
  (forall x, deg2 x -> exists u l v, In u cs /\ proper u l v /\ In x (internals l)) ->
  subdivision g adj cs E.
Proof.
  intros H1 H2 H3 H4.
  destruct (choose_list (fun uv p => proper (fst uv) p (snd uv)) E) as (paths & F).
  { intros (u, v) Huv. apply (H3 u v Huv). }
  exists paths. split; [eapply F2_mono; [|exact F]; intros x y K; apply K|].
  assert (CA : forall c a, In c cs -> In a (adj c) -> exists p, In p paths /\ (In a p \/ In (twin a) p) /\ exists u v, proper u p v).
  { intros c a Hc Ha. destruct (Hnb c Hc) as [ND N].
    destruct (choose_list (fun v a => In a (adj c) /\ (exists l, proper c (a :: l) v) /\
                exists p, In p paths /\ (In a p \/ In (twin a) p) /\ exists u v, proper u p v) (nb c)) as (as_ & Fa).
    { intros v Hv. apply N in Hv as [Hv|Hv].
      - destruct (F2_in_l _ _ _ F _ Hv) as (p & Ip & Pp). cbn [fst snd] in Pp. pose proof Pp as (Pa & (Np & _) & _).
        destruct p as [|x p]; [congruence|]. exists x. split; [apply Pa|]. split; [eauto|]. exists (x :: p). split; auto. split; [left; now left|eauto].
      - destruct (F2_in_l _ _ _ F _ Hv) as (p & Ip & Pp). cbn [fst snd] in Pp. pose proof (proper_rev g adj R _ _ _ Pp) as Pr.
        pose proof Pr as (Pa & (Np & _) & _). destruct (rev (map twin p)) as [|x q] eqn:Ex; [congruence|].
        exists x. split; [apply Pa|]. split; [eauto|]. exists p. split; auto. split; [|eauto]. right.
        assert (I : In x (rev (map twin p))) by (rewrite Ex; now left). apply in_rev, in_map_iff in I as (y & <- & Iy). now rewrite twin_invol. }
    assert (NDa : NoDup as_).
    { clear -ND Fa R. revert ND. induction Fa as [|v a l l' (H1 & (q & H2) & _) F IH]; intros ND; [constructor|]. inversion ND; subst. constructor; auto.
      intros I. destruct (F2_in_r _ _ _ F a I) as (v' & Iv & _ & (q' & H2') & _). 
      destruct H2 as (P & T & _), H2' as (P' & T' & _). pose proof (thr_det g adj _ _ _ T T'). subst q'. rewrite (path_det g adj _ _ _ _ P P') in *. tauto. }
    assert (Inc : incl (adj c) as_).
    { apply NoDup_length_incl; auto.
      - rewrite <- (F2_len _ _ _ Fa). destruct (H1 c Hc) as [-> _]. auto.
      - intros b Hb. destruct (F2_in_r _ _ _ Fa b Hb) as (v & _ & ? & _). auto. }
    destruct (F2_in_r _ _ _ Fa a (Inc a Ha)) as (v & _ & _ & _ & K). auto. }
  split.
  - apply NoDup_app_intro; auto.
    + assert (K : forall E' P', incl E' E -> NoDup E' -> Forall2 (fun uv p => proper (fst uv) p (snd uv)) E' P' -> NoDup (flat_map internals P')).
      { intros E' P' Ic ND F'. induction F' as [|[u v] p E' P' Hp F' IH]; cbn [flat_map]; [constructor|]. cbn [fst snd] in Hp.
        inversion ND as [|? ? N1 N2]; subst. apply NoDup_app_intro.
        - eapply proper_internals_nodup; [|exact Hp]. apply HE. apply Ic. now left.
        - apply IH; auto. intros z Hz. apply Ic; now right.
        - intros x Hx Hy. apply in_flat_map in Hy as (p' & Ip' & Hy). destruct (F2_in_r _ _ _ F' p' Ip') as ((u' & v') & I' & Hp'). cbn [fst snd] in Hp'.
          destruct (proper_internals_disjoint _ _ _ _ _ _ _ Hp Hp' Hx Hy) as [[-> ->]|[-> ->]]; [tauto|].
          destruct (HE v' u') as (_ & _ & _ & NN); [apply Ic; now left|]. apply NN. apply Ic. now right. }
      eapply K; eauto. intros z; auto.
    + intros x Hx Hy. apply in_flat_map in Hy as (p & Ip & Hy). destruct (F2_in_r _ _ _ F p Ip) as ((u & v) & _ & Hp).
      apply (H1 x Hx). eapply internal_deg2; eauto.
  - intros e (w & Hw). destruct (in_dec Z.eq_dec w cs) as [Hc|Hc].
    + destruct (CA w e Hc Hw) as (p & ? & ? & _). eauto.
    + destruct (H2 w Hc) as [K|K]; [rewrite K in Hw; destruct Hw|].
      destruct (H4 w K) as (u & l & v & Hu & Hl & Iw).
      pose proof Hl as (Pl & (Nl & Al & _) & _). destruct l as [|a l]; [congruence|].
      destruct (CA u a Hu (proj1 Pl)) as (p & Ip & Ia & u' & v' & Hp).
      assert (Q : forall y, In y (a :: l) -> In y p \/ In (twin y) p).
      { destruct Ia as [Ia|Ia].
        - rewrite (proper_same g adj R _ _ _ _ _ _ a Hl Hp); auto. now left.
        - destruct (proper_opposite g adj R _ _ _ _ _ _ a Hl Hp) as (-> & _); auto; [now left|].
          intros y Hy. right. apply -> in_rev. apply in_map. auto. }
      apply internal_split in Iw as (l1 & b & c & l2 & El & Eh). destruct (Al _ _ _ _ El) as [D Ec].
      rewrite El in Pl. apply path_mid in Pl as (_ & wb & Hb). destruct (nxt_ok g adj R _ _ Hb D) as (_ & _ & X). rewrite Eh in X.
      exists p. split; auto. destruct (X e Hw) as [-> | ->].
      * assert (I : In b (a :: l)) by (rewrite El; apply in_or_app; right; now left). apply Q in I. rewrite twin_invol. tauto.
      * rewrite <- Ec. apply Q. rewrite El. apply in_or_app; right; right; now left.
Qed.

Lemma complete : subdivision g adj cs E ->
  (exists paths, Forall2 (fun uv p => path g adj (fst uv) p (snd uv)) E paths /\
    (forall c, In c cs -> length (adj c) = length (nb c)) /\
    (forall v, ~ In v cs -> adj v = [] \/ (deg2 v /\ exists p, In p paths /\ In v (internals p))) /\
    (forall p l1 a b l2, In p paths -> p = l1 ++ a :: b :: l2 -> deg2 (hv a) /\ b = nxt g adj a) /\
    (forall p x, In p paths -> In x (internals p) -> ~ In x cs) /\
    (forall p p' a, In p paths -> In p' paths -> In a p -> In a p' -> p = p') /\
    (forall c a, In c cs -> In a (adj c) -> exists p v q, In p paths /\
       ((In (c, v) E /\ path g adj c p v /\ p = a :: q) \/ (In (v, c) E /\ path g adj v p c /\ p = q ++ [twin a])))) /\
  ((forall c, In c cs -> length (nb c) <> 2%nat) ->
  (forall c, In c cs -> length (adj c) = length (nb c) /\ ~ deg2 c) /\
  (forall v, ~ In v cs -> adj v = [] \/ deg2 v) /\
  (forall u v, In (u, v) E -> exists l, proper u l v) /\
  (forall x, deg2 x -> exists u l v, In (u, v) E /\ proper u l v /\ In x (internals l)) /\
  (forall u l v, In u cs -> proper u l v -> In v (nb u)) /\
  (forall u l l' v, In u cs -> proper u l v -> proper u l' v -> l = l')).
Proof.
  intros (paths & F & ND & Cov). apply NoDup_app_inv in ND as (_ & NDi & Dis).
  assert (Int : forall p x, In p paths -> In x (internals p) -> ~ In x cs).
  { intros p x Hp Hx Hc. apply (Dis x Hc). apply in_flat_map; eauto. }
  assert (PE : forall p, In p paths -> exists u v, In (u, v) E /\ path g adj u p v).
  { intros p Hp. destruct (F2_in_r _ _ _ F p Hp) as ((u & v) & ? & ?). eauto. }
  assert (EP : forall u v, In (u, v) E -> exists p, In p paths /\ path g adj u p v).
  { intros u v H. destruct (F2_in_l _ _ _ F _ H) as (p & ? & ?). eauto. }
  assert (NDp : forall p, In p paths -> NoDup (removelast p)).
  { intros p Hp. pose proof (flat_nodup internals paths p NDi Hp) as N. unfold ObsSpec.internals in N. eapply NoDup_map_inv; eauto. }
  (* where an arc of a path starts and ends *)
  assert (St : forall p u v m1 y m2, In p paths -> path g adj u p v -> In (u, v) E -> p = m1 ++ y :: m2 ->
     forall x, In y (adj x) -> (m1 = [] /\ x = u) \/ (exists m1' a, m1 = m1' ++ [a] /\ hv a = x /\ In x (internals p))).
  { intros p u v m1 y m2 Hp P HI Ep x Hx. destruct m1 as [|a m1 _] using rev_ind.
    - left. split; auto. rewrite Ep in P. destruct P as [P _]. eapply (ch_disj _ _ (rep_chains _ _ R)); eauto.
    - right. exists m1, a. split; auto. rewrite <- app_assoc in Ep. cbn [app] in Ep. rewrite Ep in P.
      apply path_mid in P as (B1 & _). rewrite (ch_disj _ _ (rep_chains _ _ R) _ _ _ B1 Hx). split; auto.
      rewrite <- (ch_disj _ _ (rep_chains _ _ R) _ _ _ B1 Hx). rewrite Ep. apply internal_intro. }
  assert (En : forall p u v m1 y m2, In p paths -> path g adj u p v -> In (u, v) E -> p = m1 ++ y :: m2 ->
     (m2 = [] /\ hv y = v) \/ (exists b m2', m2 = b :: m2' /\ In (hv y) (internals p))).
  { intros p u v m1 y m2 Hp P HI Ep. destruct m2 as [|b m2].
    - left. split; auto. rewrite Ep in P. eapply path_last; eauto.
    - right. exists b, m2. split; auto. rewrite Ep. apply internal_intro. }
  (* internal vertices *)
  assert (IV : forall p l1 a b l2, In p paths -> p = l1 ++ a :: b :: l2 ->
     (forall y, In y (adj (hv a)) -> y = twin a \/ y = b) /\ b <> twin a).
  { intros p l1 a b l2 Hp Ep. destruct (PE p Hp) as (u & v & HI & P).
    assert (Ia : In (hv a) (internals p)) by (rewrite Ep; apply internal_intro).
    assert (Nc : ~ In (hv a) cs) by eauto.
    assert (Same : forall p' a' m1 m2, In p' paths -> p' = m1 ++ a' :: m2 -> hv a' = hv a -> In (hv a) (internals p') ->
       m2 <> [] -> p' = p /\ a' = a).
    { intros p' a' m1 m2 Hp' Ep' Eh Ii Nm. assert (Epp : p' = p) by (eapply flat_same; eauto). split; auto. rewrite Epp in Ep'.
      destruct m2 as [|y m2]; [congruence|].
      pose proof (flat_nodup internals paths p NDi Hp) as N. unfold ObsSpec.internals in N.
      assert (J1 : In a (removelast p)) by (rewrite Ep, split_removelast; apply in_or_app; right; now left).
      assert (J2 : In a' (removelast p)) by (rewrite Ep', split_removelast; apply in_or_app; right; now left).
      clear -N J1 J2 Eh. induction (removelast p) as [|z l IH]; [destruct J1|]. cbn in N. inversion N; subst.
      destruct J1 as [->|J1], J2 as [->|J2]; auto.
      - exfalso. apply H1. rewrite <- Eh. now apply in_map.
      - exfalso. apply H1. rewrite Eh. now apply in_map. }
    split.
    - intros y Hy. destruct (Cov y) as (p' & Hp' & Ir); [eexists; eauto|]. destruct (PE p' Hp') as (u' & v' & HI' & P').
      destruct Ir as [Ir|Ir]; apply in_split in Ir as (m1 & m2 & Ep').
      + destruct (St p' u' v' m1 y m2 Hp' P' HI' Ep' _ Hy) as [[_ Q]|(m1' & a' & -> & Eh & Ii)].
        * exfalso. apply Nc. rewrite Q. apply (HE _ _ HI').
        * rewrite <- app_assoc in Ep'. cbn [app] in Ep'. destruct (Same p' a' m1' (y :: m2)) as [-> ->]; auto; [discriminate|].
          right. symmetry. eapply succ_unique; [apply (NDp p Hp)|exact Ep|exact Ep'].
      + pose proof (arc_tail g adj R _ _ Hy) as Th.
        destruct (En p' u' v' m1 (twin y) m2 Hp' P' HI' Ep') as [[_ Q]|(b' & m2' & -> & Ii)].
        * exfalso. apply Nc. rewrite <- Th, Q. apply (HE _ _ HI').
        * rewrite Th in Ii. destruct (Same p' (twin y) m1 (b' :: m2')) as [_ Q]; auto; [discriminate|]. left. rewrite <- Q. now rewrite twin_invol.
    - intros Q. pose proof P as P1. rewrite Ep in P1. apply path_mid in P1 as (B1 & w & B2).
      assert (Hb : hv b = w) by (rewrite Q; now apply (arc_tail g adj R)).
      assert (Ep2 : p = (l1 ++ [a]) ++ b :: l2) by (rewrite Ep, <- app_assoc; reflexivity).
      destruct (HE _ _ HI) as (C1 & C2 & C3 & _).
      destruct (St p u v l1 a (b :: l2) Hp P HI Ep w B2) as [[L1 Q1]|(m1' & a' & L1 & Eh & Ii)];
        destruct (En p u v (l1 ++ [a]) b l2 Hp P HI Ep2) as [[L2 Q2]|(b' & m2' & L2 & Ij)].
      + congruence.
      + apply (Int p (hv b)); auto. rewrite Hb, Q1. auto.
      + apply (Int p w); auto. rewrite <- Hb, Q2. auto.
      + (* w occurs twice among the internal vertices *)
        subst l1 l2. pose proof (flat_nodup internals paths p NDi Hp) as N. unfold ObsSpec.internals in N.
        rewrite Ep in N. rewrite <- app_assoc in N. cbn [app] in N.
        change (m1' ++ a' :: a :: b :: b' :: m2') with (m1' ++ [a'; a; b] ++ b' :: m2') in N.
        rewrite app_assoc in N. rewrite removelast_app in N by discriminate. rewrite !map_app in N. cbn [map] in N.
        apply NoDup_app_inv in N as (N & _ & _). apply NoDup_app_inv in N as (_ & N & _). inversion N as [|? ? N1 _]; subst.
        apply N1. right; left. congruence. }
  assert (ID : forall p x, In p paths -> In x (internals p) -> deg2 x).
  { intros p x Hp Hx. apply internal_split in Hx as (l1 & a & b & l2 & Ep & <-). destruct (IV p l1 a b l2 Hp Ep) as [A B].
    destruct (PE p Hp) as (u & v & HI & P). rewrite Ep in P. apply path_mid in P as (B1 & w & B2).
    unfold ObsP.deg2. change 2%nat with (length [twin a; b]). apply Nat.le_antisymm; apply NoDup_incl_length.
    - apply (adj_nodup g adj R).
    - intros y Hy. destruct (A y Hy); subst; cbn; auto.
    - constructor; [intros [Q|[]]; congruence|constructor; [intros []|constructor]].
    - intros y [<-|[<-|[]]]; auto. now apply (arc_twin g adj R) with w. }
  (* the arcs of a corner *)
  set (Q := fun c a v => exists p, In p paths /\ ((In (c, v) E /\ path g adj c p v /\ exists q, p = a :: q) \/
                                   (In (v, c) E /\ path g adj v p c /\ exists q, p = q ++ [twin a]))).
  assert (QT : forall c a, In c cs -> In a (adj c) -> exists v, In v (nb c) /\ Q c a v).
  { intros c a Hc Ha. destruct (Cov a) as (p & Hp & Ir); [eexists; eauto|]. destruct (PE p Hp) as (u & v & HI & P).
    destruct Ir as [Ir|Ir]; apply in_split in Ir as (m1 & m2 & Ep).
    - destruct (St p u v m1 a m2 Hp P HI Ep c Ha) as [[-> ->]|(m1' & a' & _ & _ & Ii)]; [|exfalso; eapply Int; eauto].
      exists v. split; [apply Hnb; auto|]. exists p. split; auto. left. split; auto. split; auto. exists m2. auto.
    - pose proof (arc_tail g adj R _ _ Ha) as Th.
      destruct (En p u v m1 (twin a) m2 Hp P HI Ep) as [[-> Q1]|(b & m2' & _ & Ii)]; [|exfalso; eapply Int; eauto; now rewrite Th].
      rewrite Th in Q1. subst v. exists u. split; [apply Hnb; auto|]. exists p. split; auto. right. split; auto. split; auto. exists m1. auto. }
  assert (QS : forall c v, In c cs -> In v (nb c) -> exists a, In a (adj c) /\ Q c a v).
  { intros c v Hc Hv. apply Hnb in Hv; auto. destruct Hv as [Hv|Hv]; destruct (EP _ _ Hv) as (p & Hp & P).
    - destruct p as [|a q]; [cbn in P; destruct (HE _ _ Hv) as (_ & _ & ? & _); congruence|].
      exists a. split; [apply P|]. exists (a :: q). split; auto. left. eauto.
    - destruct p as [|a q _] using rev_ind; [cbn in P; destruct (HE _ _ Hv) as (_ & _ & ? & _); congruence|].
      exists (twin a). pose proof P as P1. apply path_app in P1 as (w & _ & P1). cbn in P1. destruct P1 as [P1 <-].
      split; [now apply (arc_twin g adj R) with w|]. exists (q ++ [a]). split; auto. right. split; auto. split; auto. exists q. now rewrite twin_invol. }
  assert (PU : forall u v p p', In (u, v) E -> In p paths -> In p' paths -> path g adj u p v -> path g adj u p' v -> p = p').
  { intros u v p p' HI Hp Hp' P P'.
    assert (K : forall (E0 : list (Z * Z)) P0, Forall2 (fun uv p => path g adj (fst uv) p (snd uv)) E0 P0 -> incl E0 E -> NoDup E0 ->
       forall q q', In q P0 -> In q' P0 -> path g adj u q v -> path g adj u q' v -> q = q').
    { intros E0 P0 F0. induction F0 as [|[u0 v0] q0 E0 P0 H0 F0 IH]; intros Ic ND0 q q' Hq Hq' Pq Pq'; [destruct Hq|]. cbn [fst snd] in H0.
      inversion ND0 as [|? ? N1 N2]; subst.
      assert (X : forall z, In z P0 -> path g adj u z v -> In (u, v) E0).
      { intros z Hz Pz. destruct (F2_in_r _ _ _ F0 z Hz) as ((uz & vz) & Iz & Pz'). cbn [fst snd] in Pz'.
        destruct z as [|e z]; [cbn in Pz'; subst vz; exfalso; eapply (HE uz uz); eauto; apply Ic; now right|].
        destruct Pz as [A1 A2], Pz' as [A1' A2']. pose proof (ch_disj _ _ (rep_chains _ _ R) _ _ _ A1 A1').
        pose proof (path_det g adj _ _ _ _ A2 A2'). subst. auto. }
      assert (Y : path g adj u q0 v -> (u0, v0) = (u, v)).
      { intros Pz. destruct q0 as [|e z]; [cbn in H0; subst v0; exfalso; eapply (HE u0 u0); eauto; apply Ic; now left|].
        destruct Pz as [A1 A2], H0 as [A1' A2']. pose proof (ch_disj _ _ (rep_chains _ _ R) _ _ _ A1 A1').
        pose proof (path_det g adj _ _ _ _ A2 A2'). subst. auto. }
      destruct Hq as [<-|Hq], Hq' as [<-|Hq']; auto.
      - exfalso. apply N1. rewrite (Y Pq). eauto.
      - exfalso. apply N1. rewrite (Y Pq'). eauto.
      - apply IH; auto. intros z Hz; apply Ic; now right. }
    eapply K; eauto. intros z; auto. }
  assert (QF : forall c a a' v, Q c a v -> Q c a' v -> a = a').
  { intros c a a' v (p & Hp & [(I1 & P1 & q & Ep)|(I1 & P1 & q & Ep)]) (p' & Hp' & [(I2 & P2 & q' & Ep')|(I2 & P2 & q' & Ep')]).
    - assert (p = p') by (eapply PU; eauto). congruence.
    - exfalso. apply (HE _ _ I1). auto.
    - exfalso. apply (HE _ _ I1). auto.
    - assert (Epp : p = p') by (eapply (PU v c); eauto). rewrite <- Epp, Ep in Ep'. apply app_inj_tail in Ep' as [_ Ep'].
      rewrite <- (twin_invol a), Ep'. apply twin_invol. }
  assert (QG : forall c a v v', In c cs -> Q c a v -> Q c a v' -> v = v').
  { intros c a v v' Hc (p & Hp & H) (p' & Hp' & H').
    (* the far end of a is v, or internal to p *)
    assert (K : forall p v, In p paths -> ((In (c, v) E /\ path g adj c p v /\ exists q, p = a :: q) \/ (In (v, c) E /\ path g adj v p c /\ exists q, p = q ++ [twin a])) ->
       (In v cs /\ hv a = v) \/ In (hv a) (internals p)).
    { clear H H' Hp Hp' p p' v v'. intros p v Hp [(I & P & q & Ep)|(I & P & q & Ep)].
      - destruct (En p c v [] a q Hp P I Ep) as [[_ X]|(b & m & _ & X)]; [left; split; auto; apply (HE _ _ I)|auto].
      - assert (Ha : In (twin a) (adj (hv a))).
        { rewrite Ep in P. apply path_app in P as (w & _ & P). cbn in P. destruct P as [P _]. pose proof (arc_tail g adj R _ _ P) as T. rewrite twin_invol in T. now rewrite T. }
        destruct (St p v c q (twin a) [] Hp P I Ep _ Ha) as [[_ X]|(m1 & a' & _ & _ & X)]; [left; split; auto; apply (HE _ _ I)|auto]. }
    destruct (K p v Hp H) as [[C1 X]|X], (K p' v' Hp' H') as [[C2 X']|X']; try congruence.
    - exfalso. eapply (Int p'); eauto. now rewrite X.
    - exfalso. eapply (Int p); eauto. now rewrite X'.
    - assert (p = p') by (eapply flat_same; eauto). subst p'. clear K X X'.
      assert (Dt : forall u v u' v', In (u, v) E -> path g adj u p v -> path g adj u' p v' -> u = u' /\ v = v').
      { intros u0 v0 u1 v1 I P P'. destruct p as [|e p0]; [cbn in P; subst; exfalso; eapply (HE v0 v0); eauto|].
        destruct P as [A1 A2], P' as [A1' A2']. split; [eapply (ch_disj _ _ (rep_chains _ _ R)); eauto|eapply path_det; eauto]. }
      destruct H as [(I & P & _)|(I & P & _)], H' as [(I' & P' & _)|(I' & P' & _)]; destruct (Dt _ _ _ _ I P P'); congruence. }
  assert (CD : forall c, In c cs -> length (adj c) = length (nb c)).
  { intros c Hc. apply (bij_length _ _ (Q c)).
    - apply (adj_nodup g adj R).
    - now apply Hnb.
    - intros a Ha. apply QT; auto.
    - intros v Hv. apply QS; auto.
    - intros a a' v _ _. apply QF.
    - intros a v v' _. now apply QG. }
  assert (C0 : forall v, ~ In v cs -> adj v = [] \/ (deg2 v /\ exists p, In p paths /\ In v (internals p))).
  { intros v Hv. destruct (adj v) as [|a l] eqn:Ea; [auto|right].
    assert (Ha : In a (adj v)) by (rewrite Ea; now left).
    destruct (Cov a) as (p & Hp & Ir); [eexists; eauto|]. destruct (PE p Hp) as (u & w & HI & P).
    destruct Ir as [Ir|Ir]; apply in_split in Ir as (m1 & m2 & Ep).
    + destruct (St p u w m1 a m2 Hp P HI Ep v Ha) as [[-> ->]|(m1' & a' & _ & _ & Ii)]; [exfalso; apply Hv; apply (HE _ _ HI)|eauto].
    + pose proof (arc_tail g adj R _ _ Ha) as Th.
      destruct (En p u w m1 (twin a) m2 Hp P HI Ep) as [[-> Q1]|(b & m2' & _ & Ii)]; [exfalso; apply Hv; rewrite <- Th, Q1; apply (HE _ _ HI)|].
      rewrite Th in Ii. eauto. }
  assert (TH : forall p l1 a b l2, In p paths -> p = l1 ++ a :: b :: l2 -> deg2 (hv a) /\ b = nxt g adj a).
  { intros p l1 a b l2 Hp Ep. destruct (IV p l1 a b l2 Hp Ep) as [_ B]. split; [apply (ID p); auto; rewrite Ep; apply internal_intro|].
    destruct (PE p Hp) as (u & v & HI & P). rewrite Ep in P. apply path_mid in P as (B1 & w & B2).
    destruct (nxt_ok g adj R _ _ B2) as (_ & _ & X); [apply (ID p); auto; rewrite Ep; apply internal_intro|]. destruct (X b B1); auto. congruence. }
  assert (US : forall p p' a, In p paths -> In p' paths -> In a p -> In a p' -> p = p').
  { intros p p' a Hp Hp' Ia Ia'. destruct (PE p Hp) as (u & v & HI & P). destruct (PE p' Hp') as (u' & v' & HI' & P').
    destruct (path_arcs g adj _ _ _ P a Ia) as (w & Hw).
    apply in_split in Ia as (m1 & m2 & Ep). apply in_split in Ia' as (m1' & m2' & Ep').
    destruct (HE _ _ HI) as (C1 & C2 & _), (HE _ _ HI') as (C1' & C2' & _).
    destruct (St _ _ _ _ _ _ Hp P HI Ep w Hw) as [[L1 Q1]|(? & ? & _ & _ & Ii)], (St _ _ _ _ _ _ Hp' P' HI' Ep' w Hw) as [[L1' Q1']|(? & ? & _ & _ & Ii')].
    - destruct (En _ _ _ _ _ _ Hp P HI Ep) as [[L2 Q2]|(? & ? & _ & Ij)], (En _ _ _ _ _ _ Hp' P' HI' Ep') as [[L2' Q2']|(? & ? & _ & Ij')].
      + congruence.
      + exfalso. apply (Int p' (hv a)); auto. rewrite Q2; auto.
      + exfalso. apply (Int p (hv a)); auto. rewrite Q2'; auto.
      + eapply flat_same; eauto.
    - exfalso. apply (Int p' w); auto. rewrite Q1; auto.
    - exfalso. apply (Int p w); auto. rewrite Q1'; auto.
    - eapply flat_same; eauto. }
  split.
  { exists paths. split; [auto|]. split; [auto|]. split; [auto|]. split; [auto|]. split; [auto|]. split; [auto|].
    intros c a Hc Ha. destruct (QT c a Hc Ha) as (v & _ & p & Hp & [(I & P & q & Ep)|(I & P & q & Ep)]); exists p, v, q; split; auto. }
  intros Hd.
  assert (CN : forall c, In c cs -> ~ deg2 c) by (intros c Hc; unfold ObsP.deg2; rewrite CD by auto; auto).
  assert (PP : forall u v p, In (u, v) E -> In p paths -> path g adj u p v -> proper u p v).
  { intros u v p HI Hp P. destruct (HE _ _ HI) as (C1 & C2 & C3 & _). split; auto. split; [|auto]. split; [|split].
    - intros ->. cbn in P. auto.
    - intros l1 a b l2 Ep. eapply TH; eauto.
    - intros l1 a Ep. rewrite Ep in P. rewrite (path_last g adj _ _ _ _ P). auto. }
  assert (CT : forall u l v, In u cs -> proper u l v -> exists a l', l = a :: l' /\ In v (nb u) /\ Q u a v).
  { intros u l v Hu H. pose proof H as (P & T & _). destruct l as [|a l]; [destruct T; congruence|].
    destruct (QT u a Hu (proj1 P)) as (w & Hw & HQ). exists a, l. split; auto.
    assert (v = w); [|subst; auto]. destruct HQ as (p & Hp & [(I & P1 & q & Ep)|(I & P1 & q & Ep)]).
    - pose proof (PP _ _ _ I Hp P1) as H1. rewrite Ep in *. destruct H1 as (_ & T1 & _). pose proof (thr_det g adj _ _ _ T T1). subst q.
      eapply path_det; eauto.
    - pose proof (proper_rev g adj R _ _ _ (PP _ _ _ I Hp P1)) as H1. rewrite Ep in H1. rewrite map_app, rev_app_distr in H1. cbn [map rev app] in H1.
      rewrite twin_invol in H1. destruct H1 as (P2 & T1 & _). pose proof (thr_det g adj _ _ _ T T1). subst l. eapply path_det; eauto. }
  split; [auto|]. split; [|split; [|split; [|split]]].
  - intros v Hv. destruct (C0 v Hv) as [|[? _]]; auto.
  - intros u v HI. destruct (EP u v HI) as (p & Hp & P). exists p. auto.
  - intros x Hx. destruct (adj x) as [|a l] eqn:Ea; [unfold ObsP.deg2 in Hx; rewrite Ea in Hx; discriminate|].
    assert (Ha : In a (adj x)) by (rewrite Ea; now left).
    assert (Hc : ~ In x cs) by (intros Hc; now apply (CN x Hc)).
    destruct (Cov a) as (p & Hp & Ir); [eexists; eauto|]. destruct (PE p Hp) as (u & w & HI & P).
    exists u, p, w. split; auto. split; auto.
    destruct Ir as [Ir|Ir]; apply in_split in Ir as (m1 & m2 & Ep).
    + destruct (St p u w m1 a m2 Hp P HI Ep x Ha) as [[-> ->]|(m1' & a' & _ & _ & Ii)]; [exfalso; apply Hc; apply (HE _ _ HI)|eauto].
    + pose proof (arc_tail g adj R _ _ Ha) as Th.
      destruct (En p u w m1 (twin a) m2 Hp P HI Ep) as [[-> Q1]|(b & m2' & _ & Ii)]; [exfalso; apply Hc; rewrite <- Th, Q1; apply (HE _ _ HI)|].
      rewrite Th in Ii. eauto.
  - intros u l v Hu H. destruct (CT u l v Hu H) as (a & l' & _ & ? & _). auto.
  - intros u l l' v Hu H H'. destruct (CT u l v Hu H) as (a & q & -> & _ & Q1). destruct (CT u l' v Hu H') as (a' & q' & -> & _ & Q2).
    assert (a = a') by (eapply QF; eauto). subst a'. f_equal. destruct H as (_ & T & _), H' as (_ & T' & _). eapply thr_det; eauto.
Qed.
End Pattern.
