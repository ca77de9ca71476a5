(** * NcP: cyclic sequences in which no two elements alternate. *)
From Coq Require Import Permutation.
From Verif Require Import Base BaseP LinkP FanP.

Definition nc (l : list Z) : Prop := forall a b, a <> b -> ~ sub [a; b; a; b] l.

Lemma sub_app_inv k l1 l2 : sub k (l1 ++ l2) -> exists k1 k2, k = k1 ++ k2 /\ sub k1 l1 /\ sub k2 l2.
Proof.
  revert k. induction l1 as [|x l1 IH]; intros k H; [exists [], k; split; [auto|]; split; [constructor|auto]|]. cbn [app] in H. inversion H; subst.
  - exists [], []. split; [auto|]. split; constructor.
  - destruct (IH _ H2) as (k1 & k2 & -> & H3 & H4). exists (x :: k1), k2. split; [auto|]. split; [now constructor|auto].
  - destruct (IH _ H2) as (k1 & k2 & -> & H3 & H4). exists k1, k2. split; [auto|]. split; [now constructor|auto].
Qed.
Lemma nc_sub k l : sub k l -> nc l -> nc k.
Proof. intros S H a b N S'. apply (H a b N). eapply sub_trans; eauto. Qed.
Lemma sub_in1 x l : sub [x] l -> In x l.
Proof. intros H. apply (sub_in _ _ _ H). now left. Qed.
Lemma in_sub1 x l : In x l -> sub [x] l.
Proof. intros H. induction l as [|y l IH]; [destruct H|]. destruct H as [->|H]; [constructor; constructor|constructor; auto]. Qed.
(** Splitting a list of four. *)
Lemma four (a b c d : Z) k1 k2 : [a; b; c; d] = k1 ++ k2 ->
  (k1 = [] /\ k2 = [a; b; c; d]) \/ (k1 = [a] /\ k2 = [b; c; d]) \/ (k1 = [a; b] /\ k2 = [c; d]) \/ (k1 = [a; b; c] /\ k2 = [d]) \/ (k1 = [a; b; c; d] /\ k2 = []).
Proof.
  intros E. destruct k1 as [|x1 k1]; [auto|]. injection E as <- E. destruct k1 as [|x2 k1]; [auto|]. injection E as <- E.
  destruct k1 as [|x3 k1]; [auto|]. injection E as <- E. destruct k1 as [|x4 k1]; [auto 6|]. injection E as <- E.
  symmetry in E. apply app_eq_nil in E. destruct E as [-> ->]. auto 8.
Qed.
Lemma nc_turn l1 l2 : nc (l1 ++ l2) -> nc (l2 ++ l1).
Proof.
  intros H a b N S. apply sub_app_inv in S. destruct S as (k1 & k2 & E & S1 & S2). apply four in E.
  destruct E as [[-> ->]|[[-> ->]|[[-> ->]|[[-> ->]|[-> ->]]]]].
  - apply (H a b N). apply sub_keep. exact S2.
  - apply (H b a ltac:(auto)). apply (sub_app [b; a; b] l1 [a] l2); auto.
  - apply (H a b N). apply (sub_app [a; b] l1 [a; b] l2); auto.
  - apply (H b a ltac:(auto)). apply (sub_app [b] l1 [a; b; a] l2); auto.
  - apply (H a b N). eapply sub_trans; [exact S1|]. apply sub_drop.
Qed.
Lemma nc_nodup l : NoDup l -> nc l.
Proof. intros H a b N S. pose proof (sub_nodup _ _ S H) as Nd. inversion Nd. cbn in H2. tauto. Qed.
Lemma nc_rev l : nc l -> nc (rev l).
Proof. intros H a b N S. apply sub_rev in S. rewrite rev_involutive in S. apply (H b a); auto. Qed.
(** Filtering a subsequence. *)
Lemma sub_filter (f : Z -> bool) k l : sub k l -> sub (filter f k) (filter f l).
Proof.
  induction 1; cbn [filter].
  - constructor.
  - destruct (f x); [now constructor|auto].
  - destruct (f x); [now constructor|auto].
Qed.
Lemma filter_id (f : Z -> bool) l : (forall x, In x l -> f x = true) -> filter f l = l.
Proof. induction l as [|x l IH]; intros H; [auto|]. cbn [filter]. rewrite H by (now left). f_equal. apply IH. intros; apply H; now right. Qed.
Lemma filter_nil (f : Z -> bool) l : (forall x, In x l -> f x = false) -> filter f l = [].
Proof. induction l as [|x l IH]; intros H; [auto|]. cbn [filter]. rewrite H by (now left). apply IH. intros; apply H; now right. Qed.
(** Elements between two others of the same block. *)
Lemma sub_between a b l1 D l2 : sub [a; b; a] (l1 ++ D ++ l2) -> ~ In a l1 -> ~ In a l2 -> In b D.
Proof.
  intros S N1 N2. apply sub_app_inv in S. destruct S as (k1 & k2 & E & S1 & S2). destruct k1 as [|x k1].
  - cbn [app] in E. subst k2. apply sub_app_inv in S2. destruct S2 as (k3 & k4 & E & S3 & S4).
    destruct k3 as [|y k3]; [cbn in E; subst; destruct N2; apply (sub_in _ _ _ S4); now left|]. injection E as <- E.
    destruct k3 as [|y k3]; [cbn in E; subst; destruct N2; apply (sub_in _ _ _ S4); right; now left|]. injection E as <- E.
    apply (sub_in _ _ _ S3). right. now left.
  - injection E as <- E. destruct N1. apply (sub_in _ _ _ S1). now left.
Qed.
(** Two adjacent copies count as one. *)
Lemma nc_dup A z B : nc (A ++ z :: B) -> nc (A ++ z :: z :: B).
Proof.
  intros H a b N S. apply (H a b N). apply sub_app_inv in S. destruct S as (k1 & k2 & E & S1 & S2). rewrite E. apply sub_app; [auto|].
  clear S1 H. inversion S2; subst; [constructor| |auto]. inversion H1; subst; [constructor; constructor| |now constructor].
  exfalso. apply four in E. destruct E as [[_ E]|[[_ E]|[[_ E]|[[_ E]|[_ E]]]]]; inversion E; subst; congruence.
Qed.
(** A new block between two copies of an element. *)
Lemma nc_ins A z D B : nc (A ++ z :: B) -> nc D -> (forall x, In x D -> x <> z /\ ~ In x A /\ ~ In x B) -> nc (A ++ z :: D ++ z :: B).
Proof.
  intros H HD Fr a b N S.
  set (f := fun x => if in_dec Z.eq_dec x D then true else false).
  assert (Ff : forall x, f x = true <-> In x D) by (intros x; unfold f; destruct (in_dec Z.eq_dec x D); split; auto; discriminate).
  assert (S' : sub [a; b; a; b] ((A ++ [z]) ++ D ++ (z :: B))) by (rewrite <- app_assoc; exact S).
  assert (No : forall x, In x D -> ~ In x (A ++ [z]) /\ ~ In x (z :: B)).
  { intros x Hx. destruct (Fr x Hx) as (F1 & F2 & F3). split.
    - intros I. apply in_app_iff in I. destruct I as [I|[I|[]]]; auto.
    - intros [I|I]; auto. }
  destruct (in_dec Z.eq_dec a D) as [Ia|Ia], (in_dec Z.eq_dec b D) as [Ib|Ib].
  - apply (HD a b N). apply (sub_filter f) in S'. rewrite (filter_app f (A ++ [z])), (filter_app f D) in S'.
    rewrite (filter_nil f (A ++ [z])), (filter_nil f (z :: B)), (filter_id f D), app_nil_r in S'.
    + rewrite filter_id in S'; [exact S'|]. intros x [<-|[<-|[<-|[<-|[]]]]]; now apply Ff.
    + intros; now apply Ff.
    + intros x Hx. destruct (f x) eqn:E; [|auto]. apply Ff in E. now destruct (No x E).
    + intros x Hx. destruct (f x) eqn:E; [|auto]. apply Ff in E. now destruct (No x E).
  - apply Ib. apply (sub_between a b (A ++ [z]) D (z :: B)); try (now apply No). eapply sub_trans; [|exact S']. apply (sub_keep [a; b; a] [a; b; a] [b]). apply sub_refl.
  - apply Ia. apply (sub_between b a (A ++ [z]) D (z :: B)); try (now apply No). eapply sub_trans; [|exact S']. constructor. apply sub_refl.
  - apply (nc_dup A z B H a b N). set (h := fun x => negb (f x)).
    assert (Fh : forall x, ~ In x D -> h x = true) by (intros x Hx; unfold h; destruct (f x) eqn:E; [apply Ff in E; tauto|auto]).
    apply (sub_filter h) in S'. rewrite (filter_app h (A ++ [z])), (filter_app h D) in S'.
    rewrite (filter_id h (A ++ [z])), (filter_id h (z :: B)), (filter_nil h D) in S'.
    + rewrite filter_id in S'; [rewrite <- app_assoc in S'; exact S'|]. intros x [<-|[<-|[<-|[<-|[]]]]]; now apply Fh.
    + intros x Hx. unfold h. now apply negb_false_iff, Ff.
    + intros x Hx. apply Fh. intros I. now destruct (No x I).
    + intros x Hx. apply Fh. intros I. now destruct (No x I).
Qed.
