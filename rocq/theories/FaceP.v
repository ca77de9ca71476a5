(** * FaceP: faces of a rotation system as cycles of arcs; what happens to them when an edge is
    added inside a face, when two systems are joined at a vertex, and when a system is mirrored. *)
From Coq Require Import Permutation.
From Verif Require Import Base BaseP GraphRec GraphM GraphSpec LinkP DFSSpec TestSpec TestP TestP3.

(** [nb e] is the far end of arc e, [rot x] the arcs of x in rotation order. *)
Definition fstep (nb : Z -> Z) (rot : Z -> list Z) (e : Z) : Z := cnext (rot (nb e)) (twin e).
Fixpoint fchain (f : Z -> Z) (l : list Z) (q : Z) : Prop :=
  match l with [] => True | e :: l' => f e = hd q l' /\ fchain f l' q end.
Definition fclosed (f : Z -> Z) (l : list Z) : Prop := l <> [] /\ fchain f l (hd NIL l).

(** The vertices [vs] with their arcs form a connected (in the sense of Euler's formula) planar
    system whose faces are [FS]. *)
Record pc (nb : Z -> Z) (rot : Z -> list Z) (vs : list Z) (FS : list (list Z)) : Prop := {
  pc_vs : NoDup vs;
  pc_nodup : NoDup (concat FS);
  pc_arcs : forall e, In e (concat FS) <-> exists x, In x vs /\ In e (rot x);
  pc_closed : forall l, In l FS -> fclosed (fstep nb rot) l;
  pc_rot : forall x, In x vs -> NoDup (rot x);
  pc_disj : forall x y e, In x vs -> In y vs -> In e (rot x) -> In e (rot y) -> x = y;
  pc_twin : forall x e, In x vs -> In e (rot x) -> In (nb e) vs /\ In (twin e) (rot (nb e)) /\ nb (twin e) = x;
  pc_euler : 2 * Z.of_nat (length FS) = Z.of_nat (length (concat FS)) - 2 * Z.of_nat (length vs) + 4 }.

Lemma twin2 e : twin (twin e) = e.
Proof. apply twin_twin. Qed.
Lemma twin_ne e : twin e <> e.
Proof. apply twin_neq. Qed.
Lemma twin_eq_inj a b : twin a = twin b -> a = b.
Proof. apply twin_inj. Qed.

Lemma fchain_app f a b q : fchain f (a ++ b) q <-> fchain f a (hd q b) /\ fchain f b q.
Proof.
  induction a as [|e a IH]; cbn [app fchain]; [tauto|]. rewrite IH.
  destruct a; cbn [app hd]; tauto.
Qed.
Lemma fchain_ext f f' l q : (forall e, In e l -> f' e = f e) -> fchain f l q -> fchain f' l q.
Proof.
  induction l as [|e l IH]; intros H C; [exact I|]. cbn in *. destruct C as [C1 C2].
  split; [rewrite H; auto|]. apply IH; auto.
Qed.
Lemma fchain_last f l q : fchain f l q -> l <> [] -> f (last l NIL) = q.
Proof.
  intros C N. destruct (list_snoc l) as [->|(l' & x & ->)]; [tauto|].
  apply fchain_app in C. rewrite last_snoc. apply C.
Qed.
Lemma fchain_change f f' l q q' : fchain f l q -> l <> [] -> NoDup l ->
  (forall e, In e l -> e <> last l NIL -> f' e = f e) -> f' (last l NIL) = q' -> fchain f' l q'.
Proof.
  intros C N Nd H E. destruct (list_snoc l) as [->|(l' & x & ->)]; [tauto|].
  apply fchain_app in C. apply fchain_app. rewrite last_snoc in *. destruct C as [C _]. split.
  - cbn [hd] in *. eapply fchain_ext; [|exact C]. intros e He. apply H; [apply in_app_iff; auto|].
    intros ->. apply (NoDup_app_disj _ _ x Nd He). now left.
  - cbn [fchain hd]. auto.
Qed.
Lemma fclosed_rot f a b : fclosed f (a ++ b) -> fclosed f (b ++ a).
Proof.
  intros [N C]. destruct a as [|x a]; [now rewrite app_nil_r|].
  destruct b as [|y b]; [now rewrite app_nil_r in *|].
  split; [discriminate|]. apply fchain_app in C. apply fchain_app. cbn [app hd] in *. tauto.
Qed.

Lemma concat_perm {A} (FS FS' : list (list A)) : Permutation FS FS' -> Permutation (concat FS) (concat FS').
Proof.
  induction 1; cbn; auto.
  - now apply Permutation_app_head.
  - rewrite !app_assoc. apply Permutation_app_tail, Permutation_app_comm.
  - eapply Permutation_trans; eauto.
Qed.

Lemma pc_perm nb rot vs FS FS' : pc nb rot vs FS -> Permutation FS FS' -> pc nb rot vs FS'.
Proof.
  intros P E. pose proof (concat_perm _ _ E) as Ec. constructor; try apply P.
  - eapply Permutation_NoDup; [exact Ec|apply P].
  - intros e. rewrite <- (pc_arcs _ _ _ _ P). split; apply Permutation_in; [now apply Permutation_sym|auto].
  - intros l Hl. apply P. eapply Permutation_in; [apply Permutation_sym, E|auto].
  - rewrite <- (Permutation_length E), <- (Permutation_length Ec). apply P.
Qed.
Lemma pc_vperm nb rot vs vs' FS : pc nb rot vs FS -> Permutation vs vs' -> pc nb rot vs' FS.
Proof.
  intros P E. assert (I : forall x, In x vs' <-> In x vs).
  { intros x. split; apply Permutation_in; [now apply Permutation_sym|auto]. }
  constructor; try apply P.
  - eapply Permutation_NoDup; [exact E|apply P].
  - intros e. rewrite (pc_arcs _ _ _ _ P). split; intros (x & Hx); exists x; rewrite I in *; auto.
  - intros x Hx. apply P. now apply I.
  - intros x y e Hx Hy. apply P; now apply I.
  - intros x e Hx He. rewrite I. apply P; auto. now apply I.
  - rewrite <- (Permutation_length E). apply P.
Qed.
Lemma pc_turn nb rot vs a b FS : pc nb rot vs ((a ++ b) :: FS) -> pc nb rot vs ((b ++ a) :: FS).
Proof.
  intros P. assert (Ec : Permutation (concat ((a ++ b) :: FS)) (concat ((b ++ a) :: FS))).
  { cbn. apply Permutation_app_tail, Permutation_app_comm. }
  constructor; try apply P.
  - eapply Permutation_NoDup; [exact Ec|apply P].
  - intros e. rewrite <- (pc_arcs _ _ _ _ P). split; apply Permutation_in; [now apply Permutation_sym|auto].
  - intros l [<-|Hl]; [apply fclosed_rot|]; apply P; [now left|now right].
  - rewrite <- (Permutation_length Ec). apply P.
Qed.

Lemma cnext_cons a l t : NoDup (a :: l) -> In t l -> cnext (a :: l) t = if t =? last l NIL then a else cnext l t.
Proof.
  intros Nd H. apply in_split in H as (l1 & l2 & ->).
  assert (Nd' : NoDup (l1 ++ t :: l2)) by now inversion Nd.
  change (a :: l1 ++ t :: l2) with ((a :: l1) ++ t :: l2) in *. rewrite !cnext_split by auto.
  rewrite last_app_ne by discriminate. destruct (list_snoc l2) as [->|(l2' & x & ->)].
  - cbn. now rewrite Z.eqb_refl.
  - rewrite last_cons_ne by (destruct l2'; discriminate). rewrite last_snoc.
    replace (t =? x) with false; [destruct l2'; reflexivity|]. symmetry. apply Z.eqb_neq. intros ->.
    apply NoDup_app_r in Nd'. inversion Nd' as [|? ? H1 H2]. apply H1, in_app_iff. right. now left.
Qed.
Lemma cnext_snoc l b t : NoDup (l ++ [b]) -> In t l -> cnext (l ++ [b]) t = if t =? last l NIL then b else cnext l t.
Proof.
  intros Nd H. apply in_split in H as (l1 & l2 & ->).
  pose proof (NoDup_app_l _ _ Nd) as Nd'. rewrite <- app_assoc in *. cbn [app] in *.
  rewrite !cnext_split by auto. rewrite last_app_ne by discriminate.
  destruct (list_snoc l2) as [->|(l2' & x & ->)].
  - cbn. now rewrite Z.eqb_refl.
  - rewrite last_cons_ne by (destruct l2'; discriminate). rewrite last_snoc.
    replace (t =? x) with false; [destruct l2'; reflexivity|]. symmetry. apply Z.eqb_neq. intros ->.
    apply NoDup_app_r in Nd'. inversion Nd' as [|? ? H1 H2]. apply H1, in_app_iff. right. now left.
Qed.
Lemma cnext_first a l : cnext (a :: l) a = hd a l.
Proof. unfold cnext. cbn. now rewrite Z.eqb_refl. Qed.
Lemma cnext_last l b : NoDup (l ++ [b]) -> cnext (l ++ [b]) b = hd b l.
Proof. intros N. now rewrite cnext_split by auto. Qed.
Lemma cnext_app_l a b t : NoDup (a ++ b) -> b <> [] -> In t a -> cnext (a ++ b) t = if t =? last a NIL then hd NIL b else cnext a t.
Proof.
  intros Nd Nb H. pose proof (NoDup_app_l _ _ Nd) as Na. apply in_split in H as (l1 & l2 & ->).
  rewrite <- app_assoc in *. cbn [app] in *. rewrite !cnext_split by auto. rewrite last_app_ne by discriminate.
  destruct (list_snoc l2) as [->|(l2' & x & ->)].
  - cbn. rewrite Z.eqb_refl. destruct b; [tauto|reflexivity].
  - rewrite last_cons_ne by (destruct l2'; discriminate). rewrite last_snoc.
    replace (t =? x) with false; [destruct l2'; reflexivity|]. symmetry. apply Z.eqb_neq. intros ->.
    apply NoDup_app_r in Na. inversion Na as [|? ? H1 H2]. apply H1, in_app_iff. right. now left.
Qed.
Lemma cnext_turn1 l1 t l2 b : NoDup ((l1 ++ t :: l2) ++ b) -> cnext (b ++ l1 ++ t :: l2) t = cnext ((l1 ++ t :: l2) ++ b) t.
Proof.
  intros Nd. assert (Nd2 : NoDup (b ++ l1 ++ t :: l2)) by (eapply Permutation_NoDup; [apply Permutation_app_comm|auto]).
  replace (b ++ l1 ++ t :: l2) with ((b ++ l1) ++ t :: l2) in * by now rewrite <- app_assoc.
  replace ((l1 ++ t :: l2) ++ b) with (l1 ++ t :: (l2 ++ b)) in * by now rewrite <- app_assoc.
  rewrite (cnext_split (b ++ l1)), (cnext_split l1) by auto. destruct l2, b; reflexivity.
Qed.
Lemma cnext_turn a b t : NoDup (a ++ b) -> In t (a ++ b) -> cnext (b ++ a) t = cnext (a ++ b) t.
Proof.
  intros Nd H. apply in_app_iff in H as [H|H]; apply in_split in H as (l1 & l2 & ->).
  - now apply cnext_turn1.
  - symmetry. apply cnext_turn1. eapply Permutation_NoDup; [apply Permutation_app_comm|auto].
Qed.
Lemma cnext_rev l a : NoDup l -> In a l -> cnext (rev l) (cnext l a) = a.
Proof.
  intros Nd H. apply in_split in H as (l1 & l2 & ->). rewrite cnext_split by auto.
  assert (Nd2 : NoDup (rev (l1 ++ a :: l2))) by now apply NoDup_rev.
  destruct l2 as [|b l2].
  - rewrite rev_app_distr in *. cbn [rev app hd] in *. destruct l1 as [|c l1]; cbn [hd rev app] in *.
    + unfold cnext. cbn. now rewrite Z.eqb_refl.
    + change (a :: rev l1 ++ [c]) with ((a :: rev l1) ++ [c]) in *. now rewrite cnext_last by auto.
  - cbn [hd]. rewrite rev_app_distr in *. cbn [rev] in *. rewrite <- !app_assoc in *. cbn [app] in *.
    now rewrite cnext_split by auto.
Qed.

Section Sys.
Variables (nb : Z -> Z) (rot : Z -> list Z) (vs : list Z) (FS : list (list Z)).
Hypothesis P : pc nb rot vs FS.
Let f := fstep nb rot.

Lemma fs_arc e : In e (concat FS) -> In (nb e) vs /\ In (twin e) (rot (nb e)) /\ In (f e) (rot (nb e)) /\ NoDup (rot (nb e)).
Proof.
  intros H. apply (pc_arcs _ _ _ _ P) in H as (x & Hx & He).
  destruct (pc_twin _ _ _ _ P _ _ Hx He) as (H1 & H2 & H3).
  pose proof (pc_rot _ _ _ _ P _ H1) as Nd. split; [auto|]. split; [auto|]. split; [|auto]. now apply cnext_in.
Qed.
(** The arc before the first arc of x. *)
Lemma fs_pred e x : In e (concat FS) -> In x vs -> rot x <> [] -> f e = hd NIL (rot x) ->
  nb e = x /\ twin e = last (rot x) NIL.
Proof.
  intros He Hx Nx E. destruct (fs_arc _ He) as (H1 & H2 & H3 & H4).
  assert (nb e = x).
  { apply (pc_disj _ _ _ _ P _ _ (f e)); auto. rewrite E. now apply hd_in. }
  split; [auto|]. rewrite H in *. apply cnext_last_iff; auto. rewrite <- E. unfold f, fstep. now rewrite H.
Qed.
Lemma fs_same e e' : In e (concat FS) -> In e' (concat FS) -> nb e = nb e' -> twin e = twin e' -> e = e'.
Proof. intros. now apply twin_eq_inj. Qed.
End Sys.

(** Only facts about cyclic order and far ends of the system's own arcs matter. *)
Lemma pc_congr nb rot vs FS nb' rot' : pc nb rot vs FS ->
  (forall x e, In x vs -> In e (rot' x) <-> In e (rot x)) ->
  (forall x, In x vs -> NoDup (rot' x)) ->
  (forall x t, In x vs -> In t (rot x) -> cnext (rot' x) t = cnext (rot x) t) ->
  (forall x e, In x vs -> In e (rot x) -> nb' e = nb e) ->
  pc nb' rot' vs FS.
Proof.
  intros P I Nd Hc Hn.
  assert (Hnt : forall x e, In x vs -> In e (rot x) -> nb' (twin e) = x).
  { intros x e Hx He. destruct (pc_twin _ _ _ _ P _ _ Hx He) as (H1 & H2 & H3). now rewrite (Hn _ _ H1 H2). }
  assert (Hf : forall e, In e (concat FS) -> fstep nb' rot' e = fstep nb rot e).
  { intros e He. destruct (fs_arc _ _ _ _ P _ He) as (H1 & H2 & _).
    apply (pc_arcs _ _ _ _ P) in He as (x & Hx & He). unfold fstep. rewrite (Hn x e Hx He). now apply Hc. }
  constructor; try apply P; auto.
  - intros e. rewrite (pc_arcs _ _ _ _ P). split; intros (x & Hx & He); exists x; split; auto; now apply (I x e Hx).
  - intros l Hl. destruct (pc_closed _ _ _ _ P l Hl) as [N C]. split; [auto|]. eapply fchain_ext; [|exact C].
    intros e He. apply Hf. apply in_concat. eauto.
  - intros x y e Hx Hy H1 H2. apply (I _ _ Hx) in H1. apply (I _ _ Hy) in H2. eapply P; eauto.
  - intros x e Hx He. apply (I _ _ Hx) in He. destruct (pc_twin _ _ _ _ P _ _ Hx He) as (H1 & H2 & H3).
    rewrite (Hn _ _ Hx He). split; [auto|]. split; [now apply I|]. eapply Hnt; eauto.
Qed.

Lemma app_ne {A} (a b : list A) : b <> [] -> a ++ b <> [].
Proof. destruct a; [auto|discriminate]. Qed.

(** Adding the edge n from R to W through the face pre ++ suf: n goes to the front of R, its twin to
    the back of W. *)
Lemma pc_add nb rot vs FS pre suf R W n nb' rot' :
  pc nb rot vs ((pre ++ suf) :: FS) ->
  In R vs -> In W vs -> R <> W -> rot R <> [] -> rot W <> [] -> pre <> [] -> suf <> [] ->
  hd NIL pre = hd NIL (rot R) -> hd NIL suf = hd NIL (rot W) ->
  (forall x, In x vs -> ~ In n (rot x) /\ ~ In (twin n) (rot x)) ->
  rot' R = n :: rot R -> rot' W = rot W ++ [twin n] -> (forall x, In x vs -> x <> R -> x <> W -> rot' x = rot x) ->
  nb' n = W -> nb' (twin n) = R -> (forall x e, In x vs -> In e (rot x) -> nb' e = nb e) ->
  pc nb' rot' vs ((n :: suf) :: (twin n :: pre) :: FS).
Proof.
  intros P HR HW NRW NR NW Npre Nsuf Hpre Hsuf Fr ER EW EO Bn Bt BO.
  set (f := fstep nb rot). set (f' := fstep nb' rot').
  pose proof (pc_nodup _ _ _ _ P) as Nd. pose proof (pc_closed _ _ _ _ P _ (or_introl eq_refl)) as [_ C].
  rewrite hd_app in C by auto. apply fchain_app in C as [C1 C2].
  assert (Hs : hd (hd NIL pre) suf = hd NIL suf) by now apply hd_ne_default. rewrite Hs in C1. clear Hs.
  assert (Ipre : forall e, In e pre -> In e (concat ((pre ++ suf) :: FS))).
  { intros e He. cbn. rewrite !in_app_iff. auto. }
  assert (Isuf : forall e, In e suf -> In e (concat ((pre ++ suf) :: FS))).
  { intros e He. cbn. rewrite !in_app_iff. auto. }
  set (z := last pre NIL). set (z' := last suf NIL).
  assert (Iz : In z pre) by now apply last_in. assert (Iz' : In z' suf) by now apply last_in.
  assert (Fz : f z = hd NIL (rot W)) by (rewrite <- Hsuf; now apply fchain_last).
  assert (Fz' : f z' = hd NIL (rot R)) by (rewrite <- Hpre; now apply fchain_last).
  destruct (fs_pred _ _ _ _ P z W (Ipre _ Iz) HW NW Fz) as [Z1 Z2].
  destruct (fs_pred _ _ _ _ P z' R (Isuf _ Iz') HR NR Fz') as [Z1' Z2'].
  assert (NdR : NoDup (rot' R)).
  { rewrite ER. constructor; [now apply Fr|now apply (pc_rot _ _ _ _ P)]. }
  assert (NdW : NoDup (rot' W)).
  { rewrite EW. apply NoDup_app_intro; [now apply (pc_rot _ _ _ _ P)|repeat constructor; tauto|].
    intros x H1 [<-|[]]. apply (Fr W HW) in H1. auto. }
  assert (Nbe : forall e, In e (concat ((pre ++ suf) :: FS)) -> nb' e = nb e).
  { intros e He. apply (pc_arcs _ _ _ _ P) in He as (x & Hx & He). now apply (BO x). }
  assert (Old : forall e, In e (concat ((pre ++ suf) :: FS)) -> e <> z -> e <> z' -> f' e = f e).
  { intros e He N1 N2. destruct (fs_arc _ _ _ _ P _ He) as (H1 & H2 & _). unfold f', f, fstep. rewrite (Nbe e He).
    destruct (Z.eq_dec (nb e) R) as [E|NE].
    - rewrite E in *. rewrite ER, cnext_cons; [|rewrite <- ER; auto|auto].
      destruct (Z.eqb_spec (twin e) (last (rot R) NIL)) as [Q|_]; [|auto].
      exfalso. apply N2. apply twin_eq_inj. congruence.
    - destruct (Z.eq_dec (nb e) W) as [E|NE'].
      + rewrite E in *. rewrite EW, cnext_snoc; [|rewrite <- EW; auto|auto].
        destruct (Z.eqb_spec (twin e) (last (rot W) NIL)) as [Q|_]; [|auto].
        exfalso. apply N1. apply twin_eq_inj. congruence.
      + now rewrite EO. }
  assert (Gz : f' z = twin n).
  { unfold f', fstep. rewrite (Nbe z (Ipre _ Iz)), Z1, EW, cnext_snoc; [|rewrite <- EW; auto|].
    - now rewrite Z2, Z.eqb_refl.
    - rewrite Z2. now apply last_in. }
  assert (Gz' : f' z' = n).
  { unfold f', fstep. rewrite (Nbe z' (Isuf _ Iz')), Z1', ER, cnext_cons; [|rewrite <- ER; auto|].
    - now rewrite Z2', Z.eqb_refl.
    - rewrite Z2'. now apply last_in. }
  assert (Gn : f' n = hd NIL suf).
  { unfold f', fstep. rewrite Bn, EW, cnext_last by (rewrite <- EW; auto). rewrite Hsuf. now apply hd_ne_default. }
  assert (Gt : f' (twin n) = hd NIL pre).
  { unfold f', fstep. rewrite Bt, ER, twin2, cnext_first. rewrite Hpre. now apply hd_ne_default. }
  cbn [concat] in Nd. pose proof (NoDup_app_l _ _ Nd) as Nd1.
  assert (Ncross : forall e, In e pre -> In e suf -> False).
  { intros e H1 H2. exact (NoDup_app_disj _ _ e Nd1 H1 H2). }
  assert (Nn : ~ In n (concat ((pre ++ suf) :: FS)) /\ ~ In (twin n) (concat ((pre ++ suf) :: FS))).
  { split; intros H; apply (pc_arcs _ _ _ _ P) in H as (x & Hx & H); now apply (Fr x Hx) in H. }
  assert (Ec : Permutation (concat ((n :: suf) :: (twin n :: pre) :: FS)) (n :: twin n :: concat ((pre ++ suf) :: FS))).
  { cbn. apply perm_skip. apply Permutation_sym, Permutation_cons_app. rewrite !app_assoc.
    apply Permutation_app_tail, Permutation_app_comm. }
  assert (Irot : forall x e, In x vs -> In e (rot' x) <-> In e (rot x) \/ (x = R /\ e = n) \/ (x = W /\ e = twin n)).
  { intros x e Hx. destruct (Z.eq_dec x R) as [->|NE].
    - rewrite ER. cbn. split; [intros [<-|H]; auto|intros [H|[[_ ->]|[H _]]]; auto; congruence].
    - destruct (Z.eq_dec x W) as [->|NE'].
      + rewrite EW, in_app_iff. cbn. split; [intros [H|[<-|[]]]; auto|intros [H|[[H _]|[_ ->]]]; auto; congruence].
      + rewrite EO by auto. split; [auto|intros [H|[[H _]|[H _]]]; auto; congruence]. }
  constructor.
  - apply P.
  - apply (Permutation_NoDup (Permutation_sym Ec)). constructor; [|constructor; [apply Nn|apply P]].
    intros [H|H]; [now apply twin_ne in H|now apply Nn in H].
  - intros e. transitivity (In e (n :: twin n :: concat ((pre ++ suf) :: FS))).
    { split; apply Permutation_in; [auto|now apply Permutation_sym]. }
    cbn [In]. rewrite (pc_arcs _ _ _ _ P). split.
    + intros [<-|[<-|(x & Hx & He)]].
      * exists R. rewrite Irot; auto.
      * exists W. rewrite Irot; auto.
      * exists x. rewrite Irot; auto.
    + intros (x & Hx & He). apply Irot in He as [He|[[_ ->]|[_ ->]]]; eauto.
  - intros l [<-|[<-|Hl]].
    + split; [discriminate|]. cbn [hd fchain]. split; [rewrite (hd_ne_default _ n NIL); auto|].
      eapply fchain_change; [exact C2|auto|now apply NoDup_app_r in Nd1| |exact Gz'].
      intros e He Ne. apply Old; auto. intros ->. eapply Ncross; eauto.
    + split; [discriminate|]. cbn [hd fchain]. split; [rewrite (hd_ne_default _ (twin n) NIL); auto|].
      eapply fchain_change; [exact C1|auto|now apply NoDup_app_l in Nd1| |exact Gz].
      intros e He Ne. apply Old; auto. intros ->. eapply Ncross; eauto.
    + destruct (pc_closed _ _ _ _ P l (or_intror Hl)) as [N C]. split; [auto|]. eapply fchain_ext; [|exact C].
      intros e He. assert (Ie : In e (concat FS)) by (apply in_concat; eauto).
      apply Old.
      * cbn. apply in_app_iff. auto.
      * intros ->. apply (NoDup_app_disj _ _ z Nd); [apply in_app_iff; auto|auto].
      * intros ->. apply (NoDup_app_disj _ _ z' Nd); [apply in_app_iff; auto|auto].
  - intros x Hx. destruct (Z.eq_dec x R) as [->|NE]; [auto|]. destruct (Z.eq_dec x W) as [->|NE']; [auto|].
    rewrite EO by auto. now apply (pc_rot _ _ _ _ P).
  - intros x y e Hx Hy H1 H2. apply Irot in H1; auto. apply Irot in H2; auto.
    destruct H1 as [H1|[[-> ->]|[-> ->]]], H2 as [H2|[[-> Q2]|[-> Q2]]]; auto.
    + eapply P; eauto.
    + subst e. now apply (Fr x Hx) in H1.
    + subst e. now apply (Fr x Hx) in H1.
    + now apply (Fr y Hy) in H2.
    + symmetry in Q2. now apply twin_ne in Q2.
    + now apply (Fr y Hy) in H2.
    + now apply twin_ne in Q2.
  - intros x e Hx He. apply Irot in He as [He|[[-> ->]|[-> ->]]]; auto.
    + destruct (pc_twin _ _ _ _ P _ _ Hx He) as (H1 & H2 & H3). rewrite (BO x e Hx He). split; [auto|].
      split; [apply Irot; auto|]. now rewrite (BO _ _ H1 H2).
    + rewrite Bn. split; [auto|]. split; [apply Irot; auto|auto].
    + rewrite Bt. split; [auto|]. split; [rewrite twin2; apply Irot; auto|now rewrite twin2].
  - rewrite (Permutation_length Ec). pose proof (pc_euler _ _ _ _ P) as E. cbn [length] in *. lia.
Qed.

(** Joining two systems at a vertex: R's arcs go behind those of Z. *)
Lemma pc_merge1 nb rot vs1 O1 F1 R ws O2 F2 Z0 nb' rot' :
  pc nb rot vs1 (O1 :: F1) -> pc nb rot (R :: ws) (O2 :: F2) ->
  (forall x, In x vs1 -> ~ In x (R :: ws)) ->
  (forall x y e, In x vs1 -> In y (R :: ws) -> In e (rot x) -> In e (rot y) -> False) ->
  In Z0 vs1 -> rot Z0 <> [] -> rot R <> [] -> hd NIL O1 = hd NIL (rot Z0) -> hd NIL O2 = hd NIL (rot R) ->
  rot' Z0 = rot Z0 ++ rot R -> (forall x, In x vs1 -> x <> Z0 -> rot' x = rot x) -> (forall x, In x ws -> rot' x = rot x) ->
  (forall e, In e (rot R) -> nb' (twin e) = Z0) ->
  (forall x e, In x (vs1 ++ R :: ws) -> In e (rot x) -> ~ In (twin e) (rot R) -> nb' e = nb e) ->
  pc nb' rot' (vs1 ++ ws) ((O2 ++ O1) :: F1 ++ F2).
Proof.
  intros P Q Dv Da HZ NZ NR H1 H2 EZ EO1 EO2 BR BO.
  set (f := fstep nb rot). set (f' := fstep nb' rot').
  assert (HR : In R (R :: ws)) by now left.
  destruct (pc_closed _ _ _ _ P _ (or_introl eq_refl)) as [N1 C1].
  destruct (pc_closed _ _ _ _ Q _ (or_introl eq_refl)) as [N2 C2].
  set (z := last O1 NIL). set (w := last O2 NIL).
  assert (Iz : In z (concat (O1 :: F1))) by (cbn; apply in_app_iff; left; now apply last_in).
  assert (Iw : In w (concat (O2 :: F2))) by (cbn; apply in_app_iff; left; now apply last_in).
  assert (Fz : f z = hd NIL (rot Z0)) by (rewrite <- H1; now apply fchain_last).
  assert (Fw : f w = hd NIL (rot R)) by (rewrite <- H2; now apply fchain_last).
  destruct (fs_pred _ _ _ _ P z Z0 Iz HZ NZ Fz) as [Z1 Z2].
  destruct (fs_pred _ _ _ _ Q w R Iw HR NR Fw) as [W1 W2].
  assert (NdZ : NoDup (rot Z0 ++ rot R)).
  { apply NoDup_app_intro; [now apply (pc_rot _ _ _ _ P)|now apply (pc_rot _ _ _ _ Q)|].
    intros e He He'. eapply Da; eauto. }
  assert (NZR : ~ In R vs1) by (intros H; now apply (Dv R H)).
  assert (NRw : ~ In R ws) by (pose proof (pc_vs _ _ _ _ Q) as N; now inversion N).
  assert (nb1 : forall e, In e (concat (O1 :: F1)) -> nb' e = nb e).
  { intros e He. destruct (fs_arc _ _ _ _ P e He) as (A1 & A2 & _). apply (pc_arcs _ _ _ _ P) in He as (x & Hx & He).
    apply (BO x); auto; [apply in_app_iff; auto|]. intros T. eapply (Da _ R); eauto. }
  assert (nb2 : forall e, In e (concat (O2 :: F2)) -> nb e <> R -> nb' e = nb e).
  { intros e He Ne. destruct (fs_arc _ _ _ _ Q e He) as (A1 & A2 & _). apply (pc_arcs _ _ _ _ Q) in He as (x & Hx & He).
    apply (BO x); auto; [apply in_app_iff; auto|]. intros T. apply Ne. eapply Q; eauto. }
  assert (nbR : forall e, In e (concat (O2 :: F2)) -> nb e = R -> nb' e = Z0).
  { intros e He Ee. destruct (fs_arc _ _ _ _ Q e He) as (A1 & A2 & _). rewrite Ee in A2. apply BR in A2. now rewrite twin2 in A2. }
  assert (Old1 : forall e, In e (concat (O1 :: F1)) -> e <> z -> f' e = f e).
  { intros e He Ne. destruct (fs_arc _ _ _ _ P _ He) as (A1 & A2 & _). unfold f', f, fstep. rewrite (nb1 e He).
    destruct (Z.eq_dec (nb e) Z0) as [E|NE]; [|now rewrite EO1].
    rewrite E in *. rewrite EZ, cnext_app_l by auto.
    destruct (Z.eqb_spec (twin e) (last (rot Z0) NIL)) as [T|_]; [|auto].
    exfalso. apply Ne, twin_eq_inj. congruence. }
  assert (Old2 : forall e, In e (concat (O2 :: F2)) -> e <> w -> f' e = f e).
  { intros e He Ne. destruct (fs_arc _ _ _ _ Q _ He) as (A1 & A2 & _). unfold f', f, fstep.
    destruct (Z.eq_dec (nb e) R) as [E|NE].
    - rewrite (nbR e He E), E in *. rewrite EZ, <- cnext_turn; [|auto|apply in_app_iff; auto].
      rewrite cnext_app_l; [| |auto|auto].
      + destruct (Z.eqb_spec (twin e) (last (rot R) NIL)) as [T|_]; [|auto].
        exfalso. apply Ne, twin_eq_inj. congruence.
      + eapply Permutation_NoDup; [apply Permutation_app_comm|auto].
    - rewrite (nb2 e He NE). rewrite EO2; [auto|]. destruct A1 as [A1|A1]; [congruence|auto]. }
  assert (Gz : f' z = hd NIL O2).
  { unfold f', fstep. rewrite (nb1 z Iz), Z1, EZ, cnext_app_l; auto; [|rewrite Z2; now apply last_in].
    now rewrite Z2, Z.eqb_refl. }
  assert (Gw : f' w = hd NIL O1).
  { unfold f', fstep. rewrite (nbR w Iw W1), EZ, <- cnext_turn; [|auto|apply in_app_iff; right; rewrite W2; now apply last_in].
    rewrite cnext_app_l; auto; [now rewrite W2, Z.eqb_refl| |rewrite W2; now apply last_in].
    eapply Permutation_NoDup; [apply Permutation_app_comm|auto]. }
  assert (Ec : Permutation (concat ((O2 ++ O1) :: F1 ++ F2)) (concat (O1 :: F1) ++ concat (O2 :: F2))).
  { cbn. rewrite concat_app. rewrite <- !app_assoc.
    rewrite (Permutation_app_comm O2). rewrite <- !app_assoc. apply Permutation_app_head.
    apply Permutation_app_head. apply Permutation_app_comm. }
  assert (Irot : forall x e, In x (vs1 ++ ws) -> In e (rot' x) <-> In e (rot x) \/ (x = Z0 /\ In e (rot R))).
  { intros x e Hx. destruct (Z.eq_dec x Z0) as [->|NE].
    - rewrite EZ, in_app_iff. split; [intros [A|A]; auto|intros [A|[_ A]]; auto].
    - rewrite in_app_iff in Hx. replace (rot' x) with (rot x) by (symmetry; destruct Hx; auto).
      split; [auto|intros [A|[A _]]; auto; congruence]. }
  pose proof (pc_nodup _ _ _ _ P) as NdP. pose proof (pc_nodup _ _ _ _ Q) as NdQ.
  assert (Dis : forall e, In e (concat (O1 :: F1)) -> In e (concat (O2 :: F2)) -> False).
  { intros e A B. apply (pc_arcs _ _ _ _ P) in A as (x & Hx & A). apply (pc_arcs _ _ _ _ Q) in B as (y & Hy & B). eapply Da; eauto. }
  assert (Ivs : forall x, In x (vs1 ++ ws) -> In x vs1 \/ In x (R :: ws)).
  { intros x Hx. apply in_app_iff in Hx as [Hx|Hx]; [auto|right; now right]. }
  assert (BRw : forall e, In e (rot R) -> In (nb e) (R :: ws) /\ In (twin e) (rot (nb e)) /\ nb (twin e) = R).
  { intros e He. now apply (pc_twin _ _ _ _ Q). }
  constructor.
  - apply NoDup_app_intro; [apply P|pose proof (pc_vs _ _ _ _ Q) as N; now inversion N|].
    intros x Hx Hw. apply (Dv x Hx). now right.
  - apply (Permutation_NoDup (Permutation_sym Ec)). apply NoDup_app_intro; auto.
  - intros e. transitivity (In e (concat (O1 :: F1) ++ concat (O2 :: F2))).
    { split; apply Permutation_in; [auto|now apply Permutation_sym]. }
    rewrite in_app_iff, (pc_arcs _ _ _ _ P), (pc_arcs _ _ _ _ Q). split.
    + intros [(x & Hx & He)|(x & [<-|Hx] & He)].
      * exists x. rewrite Irot by (apply in_app_iff; auto). split; [apply in_app_iff|]; auto.
      * exists Z0. rewrite Irot by (apply in_app_iff; auto). split; [apply in_app_iff|]; auto.
      * exists x. rewrite Irot by (apply in_app_iff; auto). split; [apply in_app_iff|]; auto.
    + intros (x & Hx & He). apply Irot in He as [He|[-> He]]; auto.
      * destruct (Ivs x Hx); [left|right]; eauto.
      * right. exists R. auto.
  - intros l [<-|Hl].
    + split; [now apply app_ne|]. rewrite hd_app by auto. apply fchain_app. split.
      * eapply fchain_change; [exact C2|auto|cbn in NdQ; now apply NoDup_app_l in NdQ| |].
        { intros e He Ne. apply Old2; auto. cbn. apply in_app_iff; auto. }
        rewrite (hd_ne_default O1 _ NIL) by auto. exact Gw.
      * eapply fchain_change; [exact C1|auto|cbn in NdP; now apply NoDup_app_l in NdP| |exact Gz].
        intros e He Ne. apply Old1; auto. cbn. apply in_app_iff; auto.
    + apply in_app_iff in Hl as [Hl|Hl].
      * destruct (pc_closed _ _ _ _ P l (or_intror Hl)) as [N C]. split; [auto|]. eapply fchain_ext; [|exact C].
        intros e He. assert (Ie : In e (concat F1)) by (apply in_concat; eauto). cbn in NdP. apply Old1.
        -- cbn. apply in_app_iff. auto.
        -- intros ->. apply (NoDup_app_disj _ _ z NdP); [now apply last_in|auto].
      * destruct (pc_closed _ _ _ _ Q l (or_intror Hl)) as [N C]. split; [auto|]. eapply fchain_ext; [|exact C].
        intros e He. assert (Ie : In e (concat F2)) by (apply in_concat; eauto). cbn in NdQ. apply Old2.
        -- cbn. apply in_app_iff. auto.
        -- intros ->. apply (NoDup_app_disj _ _ w NdQ); [now apply last_in|auto].
  - intros x Hx. destruct (Z.eq_dec x Z0) as [->|NE]; [rewrite EZ; auto|].
    apply in_app_iff in Hx as [Hx|Hx]; [rewrite EO1 by auto; now apply (pc_rot _ _ _ _ P)|].
    rewrite EO2 by auto. apply (pc_rot _ _ _ _ Q). now right.
  - intros x y e Hx Hy A B. apply Irot in A; auto. apply Irot in B; auto.
    destruct A as [A|[-> A]], B as [B|[-> B]]; auto.
    + destruct (Ivs x Hx) as [Ix|Ix], (Ivs y Hy) as [Iy|Iy].
      * eapply (pc_disj _ _ _ _ P); eauto.
      * exfalso. eapply Da; eauto.
      * exfalso. eapply Da; eauto.
      * eapply (pc_disj _ _ _ _ Q); eauto.
    + apply in_app_iff in Hx as [Ix|Ix]; [exfalso; eapply Da; eauto|].
      assert (x = R) by (eapply (pc_disj _ _ _ _ Q); eauto; now right). subst x. contradiction.
    + apply in_app_iff in Hy as [Iy|Iy]; [exfalso; eapply Da; eauto|].
      assert (y = R) by (eapply (pc_disj _ _ _ _ Q); eauto; now right). subst y. contradiction.
  - intros x e Hx He.
    assert (K : exists x0, (In x0 vs1 \/ In x0 (R :: ws)) /\ In e (rot x0) /\ ((x0 = x /\ x <> R) \/ (x0 = R /\ x = Z0))).
    { apply Irot in He as [He|[-> He]]; auto.
      - exists x. split; [now apply Ivs|]. split; [auto|]. left. split; [auto|]. intros ->.
        apply in_app_iff in Hx. tauto.
      - exists R. auto. }
    destruct K as (x0 & [Ix|Ix] & He0 & K).
    + assert (Ee : In e (concat (O1 :: F1))) by (apply (pc_arcs _ _ _ _ P); eauto).
      destruct (pc_twin _ _ _ _ P _ _ Ix He0) as (A1 & A2 & A3). rewrite (nb1 e Ee).
      split; [apply in_app_iff; auto|]. split; [apply Irot; [apply in_app_iff; auto|auto]|].
      assert (Et : In (twin e) (concat (O1 :: F1))) by (apply (pc_arcs _ _ _ _ P); eauto).
      rewrite (nb1 _ Et). destruct K as [[-> _]|[-> _]]; [auto|contradiction].
    + assert (Ee : In e (concat (O2 :: F2))) by (apply (pc_arcs _ _ _ _ Q); eauto).
      destruct (pc_twin _ _ _ _ Q _ _ Ix He0) as (A1 & A2 & A3).
      assert (Et : In (twin e) (concat (O2 :: F2))) by (apply (pc_arcs _ _ _ _ Q); eauto).
      assert (Tx : nb' (twin e) = x).
      { destruct K as [[-> K]|[-> ->]]; [rewrite nb2; auto; congruence|now apply nbR]. }
      destruct (Z.eq_dec (nb e) R) as [E|NE].
      * rewrite (nbR e Ee E). rewrite E in A2. split; [apply in_app_iff; auto|]. split; [|auto].
        apply Irot; [apply in_app_iff; auto|auto].
      * rewrite (nb2 e Ee NE). destruct A1 as [A1|A1]; [congruence|]. split; [apply in_app_iff; auto|]. split; [|auto].
        apply Irot; [apply in_app_iff; auto|auto].
  - rewrite (Permutation_length Ec). pose proof (pc_euler _ _ _ _ P) as E1. pose proof (pc_euler _ _ _ _ Q) as E2.
    cbn [length] in *. rewrite !app_length in *. cbn [length] in *. lia.
Qed.

Lemma pc_merge nb rot vs1 pre suf F1 R ws O2 F2 Z0 nb' rot' :
  pc nb rot vs1 ((pre ++ suf) :: F1) -> pc nb rot (R :: ws) (O2 :: F2) ->
  (forall x, In x vs1 -> ~ In x (R :: ws)) ->
  (forall x y e, In x vs1 -> In y (R :: ws) -> In e (rot x) -> In e (rot y) -> False) ->
  In Z0 vs1 -> rot Z0 <> [] -> rot R <> [] -> suf <> [] -> hd NIL suf = hd NIL (rot Z0) -> hd NIL O2 = hd NIL (rot R) ->
  rot' Z0 = rot Z0 ++ rot R -> (forall x, In x vs1 -> x <> Z0 -> rot' x = rot x) -> (forall x, In x ws -> rot' x = rot x) ->
  (forall e, In e (rot R) -> nb' (twin e) = Z0) ->
  (forall x e, In x (vs1 ++ R :: ws) -> In e (rot x) -> ~ In (twin e) (rot R) -> nb' e = nb e) ->
  pc nb' rot' (vs1 ++ ws) ((pre ++ O2 ++ suf) :: F1 ++ F2).
Proof.
  intros P Q Dv Da HZ NZ NR Ns H1 H2 EZ EO1 EO2 BR BO. apply pc_turn in P.
  apply pc_turn. rewrite <- app_assoc.
  eapply pc_merge1; eauto. now rewrite hd_app.
Qed.

(** Mirror image. *)
Definition mirror (l : list Z) : list Z := map twin (rev l).
Lemma fchain_mirror f f' l : forall q p, fchain f l q -> (forall e, In e l -> f' (twin (f e)) = twin e) ->
  (l <> [] -> f' (twin (hd NIL l)) = p) -> fchain f' (mirror l) p.
Proof.
  unfold mirror. induction l as [|e l IH]; intros q p C H Hp; [exact I|]. destruct C as [C1 C2].
  cbn [rev]. rewrite map_app. apply fchain_app. split.
  - cbn [map hd]. apply (IH q); [auto|intros; apply H; now right|]. intros N.
    rewrite <- (hd_ne_default l q NIL N), <- C1. apply H. now left.
  - cbn [map fchain hd]. split; [|exact I]. apply Hp. discriminate.
Qed.
Lemma mirror_ne l : l <> [] -> mirror l <> [].
Proof. unfold mirror. intros N H. apply N. apply map_eq_nil in H. rewrite <- (rev_involutive l), H. reflexivity. Qed.
Lemma hd_mirror l : l <> [] -> hd NIL (mirror l) = twin (last l NIL).
Proof. intros N. destruct (list_snoc l) as [->|(l' & x & ->)]; [tauto|]. unfold mirror. rewrite rev_app_distr, last_snoc. reflexivity. Qed.
Lemma in_mirror l e : In e (mirror l) <-> In (twin e) l.
Proof.
  unfold mirror. rewrite in_map_iff. split.
  - intros (x & <- & H). rewrite twin2. now apply in_rev.
  - intros H. exists (twin e). rewrite twin2. split; [auto|]. now apply -> in_rev.
Qed.
Lemma mirror_app a b : mirror (a ++ b) = mirror b ++ mirror a.
Proof. unfold mirror. now rewrite rev_app_distr, map_app. Qed.
Lemma mirror_perm l : Permutation (mirror l) (map twin l).
Proof. unfold mirror. apply Permutation_map, Permutation_sym, Permutation_rev. Qed.

Lemma pc_mirror nb rot vs FS rot' : pc nb rot vs FS ->
  (forall x, In x vs -> rot' x = rev (rot x)) -> pc nb rot' vs (map mirror FS).
Proof.
  intros P E. assert (Ec : Permutation (concat (map mirror FS)) (map twin (concat FS))).
  { clear. induction FS as [|l FS IH]; [constructor|]. cbn. rewrite map_app. apply Permutation_app; [apply mirror_perm|auto]. }
  assert (I : forall x e, In x vs -> In e (rot' x) <-> In e (rot x)).
  { intros x e Hx. rewrite E by auto. symmetry. apply in_rev. }
  assert (G : forall e, In e (concat FS) -> fstep nb rot' (twin (fstep nb rot e)) = twin e).
  { intros e He. destruct (fs_arc _ _ _ _ P _ He) as (H1 & H2 & H3 & H4). unfold fstep at 1. rewrite twin2.
    destruct (pc_twin _ _ _ _ P _ _ H1 H3) as (K1 & K2 & K3). rewrite K3, E by auto.
    unfold fstep. now apply cnext_rev. }
  constructor.
  - apply P.
  - apply (Permutation_NoDup (Permutation_sym Ec)). apply FinFun.Injective_map_NoDup; [|apply P].
    intros a b. apply twin_eq_inj.
  - intros e. transitivity (In e (map twin (concat FS))).
    { split; apply Permutation_in; [auto|now apply Permutation_sym]. }
    rewrite in_map_iff. split.
    + intros (e' & <- & H). apply (pc_arcs _ _ _ _ P) in H as (x & Hx & He).
      destruct (pc_twin _ _ _ _ P _ _ Hx He) as (H1 & H2 & H3). exists (nb e'). split; [auto|]. now apply I.
    + intros (x & Hx & He). apply I in He; auto. destruct (pc_twin _ _ _ _ P _ _ Hx He) as (H1 & H2 & H3).
      exists (twin e). split; [apply twin2|]. apply (pc_arcs _ _ _ _ P). eauto.
  - intros l' Hl'. apply in_map_iff in Hl' as (l & <- & Hl). destruct (pc_closed _ _ _ _ P l Hl) as [N C].
    split; [now apply mirror_ne|]. assert (Il : forall e, In e l -> In e (concat FS)) by (intros e He; apply in_concat; eauto).
    eapply fchain_mirror; [exact C|intros e He; apply G; auto|]. intros _.
    rewrite hd_mirror by auto. rewrite <- (fchain_last _ _ _ C N). apply G. apply Il. now apply last_in.
  - intros x Hx. rewrite E by auto. apply NoDup_rev. now apply (pc_rot _ _ _ _ P).
  - intros x y e Hx Hy A B. apply I in A; auto. apply I in B; auto. eapply P; eauto.
  - intros x e Hx He. apply I in He; auto. destruct (pc_twin _ _ _ _ P _ _ Hx He) as (H1 & H2 & H3).
    split; [auto|]. split; [now apply I|auto].
  - rewrite (Permutation_length Ec), !map_length. apply P.
Qed.

(** A single edge. *)
Lemma pc_edge nb rot a b e : a <> b -> rot a = [e] -> rot b = [twin e] -> nb e = b -> nb (twin e) = a ->
  pc nb rot [a; b] [[e; twin e]].
Proof.
  intros N Ea Eb Na Nb. pose proof (twin_ne e) as Te. constructor.
  - repeat constructor; cbn; [intros [H|[]]; congruence|tauto].
  - repeat constructor; cbn; [intros [H|[]]; congruence|tauto].
  - intros x. cbn. split.
    + intros [<-|[<-|[]]]; [exists a|exists b]; rewrite ?Ea, ?Eb; cbn; auto.
    + intros (y & [<-|[<-|[]]] & H); rewrite ?Ea, ?Eb in H; cbn in H; tauto.
  - intros l [<-|[]]. split; [discriminate|]. cbn [fchain hd]. unfold fstep.
    rewrite Na, Eb, Nb, Ea, twin2, !cnext_first. cbn. auto.
  - intros x [<-|[<-|[]]]; rewrite ?Ea, ?Eb; repeat constructor; cbn; tauto.
  - intros x y f [<-|[<-|[]]] [<-|[<-|[]]]; rewrite ?Ea, ?Eb; cbn; intuition congruence.
  - intros x f [<-|[<-|[]]]; rewrite ?Ea, ?Eb; cbn; intros [<-|[]].
    + rewrite Na, Eb, Nb. cbn. auto.
    + rewrite Nb, Ea, twin2, Na. cbn. auto.
  - reflexivity.
Qed.
