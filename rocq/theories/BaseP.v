(** * BaseP: general lemmas (monad, arrays, twins, lists). *)
From Verif Require Import Base.
From Coq Require Export Permutation.

(** ** wp *)
Lemma wp_ret {A} (a : A) (Q : A -> Prop) : Q a -> wp (Ret a) Q.
Proof. exact (fun H => H). Qed.

Lemma wp_bind {A B} (m : res A) (k : A -> res B) (Q : B -> Prop) :
  wp m (fun a => wp (k a) Q) -> wp (bind m k) Q.
Proof. destruct m; exact (fun H => H). Qed.

Lemma wp_bind_inv {A B} (m : res A) (k : A -> res B) (Q : B -> Prop) :
  wp (bind m k) Q -> wp m (fun a => wp (k a) Q).
Proof. destruct m; exact (fun H => H). Qed.

Lemma wp_mono {A} (m : res A) (P Q : A -> Prop) :
  wp m P -> (forall a, P a -> Q a) -> wp m Q.
Proof. destruct m; simpl; intros H HI; auto. Qed.

Lemma wp_guard {A} (b : bool) (k : res A) (Q : A -> Prop) :
  b = true -> wp k Q -> wp (guard b k) Q.
Proof. intros -> H; exact H. Qed.

Lemma wp_inv {A} (m : res A) (Q : A -> Prop) :
  wp m Q -> exists a, m = Ret a /\ Q a.
Proof. destruct m; simpl; intros H; try contradiction. exists a; auto. Qed.

Lemma wp_of_eq {A} (m : res A) a (Q : A -> Prop) : m = Ret a -> Q a -> wp m Q.
Proof. intros ->; auto. Qed.

Lemma bind_ret {A B} (a : A) (k : A -> res B) : bind (Ret a) k = k a.
Proof. reflexivity. Qed.

Lemma guard_true {A} (b : bool) (k : res A) : b = true -> guard b k = k.
Proof. intros ->; reflexivity. Qed.

(** ** upd *)
Lemma upd_same {A} (f : Z -> A) k v : upd f k v k = v.
Proof. unfold upd. now rewrite Z.eqb_refl. Qed.

Lemma upd_other {A} (f : Z -> A) k v x : x <> k -> upd f k v x = f x.
Proof. unfold upd; intros H. destruct (Z.eqb_spec x k); congruence. Qed.

Lemma upd_if {A} (f : Z -> A) k v x : upd f k v x = if x =? k then v else f x.
Proof. reflexivity. Qed.

(** ** lists *)
Lemma in_app_comm {A} (x : A) l1 l2 : In x (l1 ++ l2) <-> In x (l2 ++ l1).
Proof. rewrite !in_app_iff; tauto. Qed.

Lemma NoDup_app_intro {A} (l1 l2 : list A) :
  NoDup l1 -> NoDup l2 -> (forall x, In x l1 -> In x l2 -> False) -> NoDup (l1 ++ l2).
Proof.
  induction l1 as [|a l1 IH]; simpl; intros H1 H2 Hd; auto.
  inversion H1; subst. constructor.
  - rewrite in_app_iff; intros [H|H]; [tauto|]. eapply Hd; eauto.
  - apply IH; auto. intros; eapply Hd; eauto.
Qed.

Lemma NoDup_app_l {A} (l1 l2 : list A) : NoDup (l1 ++ l2) -> NoDup l1.
Proof.
  induction l1 as [|a l1 IH]; simpl; intros H; constructor; inversion H; subst; auto.
  rewrite in_app_iff in *; tauto.
Qed.

Lemma NoDup_app_r {A} (l1 l2 : list A) : NoDup (l1 ++ l2) -> NoDup l2.
Proof. induction l1 as [|a l1 IH]; simpl; intros H; auto. inversion H; auto. Qed.

Lemma NoDup_app_disj {A} (l1 l2 : list A) x :
  NoDup (l1 ++ l2) -> In x l1 -> In x l2 -> False.
Proof.
  induction l1 as [|a l1 IH]; simpl; intros H H1 H2; [tauto|].
  inversion H; subst. rewrite in_app_iff in *. destruct H1 as [->|H1]; eauto.
Qed.

Lemma NoDup_rev' {A} (l : list A) : NoDup l -> NoDup (rev l).
Proof. intros H. eapply Permutation_NoDup; [apply Permutation_rev|exact H]. Qed.

Lemma NoDup_split_unique {A} (l1 l2 l1' l2' : list A) x :
  NoDup (l1 ++ x :: l2) -> l1 ++ x :: l2 = l1' ++ x :: l2' -> l1 = l1' /\ l2 = l2'.
Proof.
  revert l1'. induction l1 as [|a l1 IH]; intros l1' Hn He; destruct l1' as [|b l1']; simpl in *.
  - injection He; auto.
  - injection He; intros; subst. inversion Hn; subst.
    exfalso; apply H1. rewrite in_app_iff; simpl; auto.
  - injection He; intros; subst. inversion Hn; subst.
    exfalso; apply H1. rewrite in_app_iff; simpl; auto.
  - injection He; intros; subst. inversion Hn; subst.
    destruct (IH l1' H3 H) as [-> ->]; auto.
Qed.

Lemma last_snoc {A} (l : list A) x d : last (l ++ [x]) d = x.
Proof. induction l as [|a l IH]; simpl; auto. destruct (l ++ [x]) eqn:E; auto. destruct l; discriminate. Qed.

Lemma hd_app {A} (l1 l2 : list A) d : l1 <> [] -> hd d (l1 ++ l2) = hd d l1.
Proof. destruct l1; simpl; congruence. Qed.

Lemma hd_rev {A} (l : list A) d : hd d (rev l) = last l d.
Proof.
  induction l as [|x l IH] using rev_ind; simpl; auto.
  rewrite rev_app_distr, last_snoc; reflexivity.
Qed.

Lemma last_rev {A} (l : list A) d : last (rev l) d = hd d l.
Proof. rewrite <- (rev_involutive l) at 2. now rewrite hd_rev. Qed.

(** ** Intervals of Z as lists *)
Definition zrange (lo : Z) (n : nat) : list Z := map (fun i => lo + Z.of_nat i) (seq 0 n).

Lemma in_zrange lo n x : In x (zrange lo n) <-> lo <= x < lo + Z.of_nat n.
Proof.
  unfold zrange. rewrite in_map_iff. split.
  - intros (i & <- & H). rewrite in_seq in H. lia.
  - intros H. exists (Z.to_nat (x - lo)). rewrite in_seq. lia.
Qed.

Lemma NoDup_zrange lo n : NoDup (zrange lo n).
Proof.
  unfold zrange. apply FinFun.Injective_map_NoDup; [|apply seq_NoDup].
  intros a b H; lia.
Qed.

Lemma zrange_length lo n : length (zrange lo n) = n.
Proof. unfold zrange. now rewrite map_length, seq_length. Qed.

(** ** Twin arcs: xor with 1 *)
Lemma lxor_1 e : 0 <= e -> Z.lxor e 1 = if Z.even e then e + 1 else e - 1.
Proof.
  intros H. destruct e as [|p|p]; [reflexivity| |lia].
  destruct p as [p|p|]; simpl; try reflexivity.
Qed.

Lemma lxor_1_nonneg e : 0 <= e -> 0 <= Z.lxor e 1.
Proof. intros H. rewrite Z.lxor_nonneg. lia. Qed.

Lemma twin_twin e : Z.lxor (Z.lxor e 1) 1 = e.
Proof. rewrite Z.lxor_assoc. simpl. apply Z.lxor_0_r. Qed.

Lemma twin_inj a b : Z.lxor a 1 = Z.lxor b 1 -> a = b.
Proof. intros H. rewrite <- (twin_twin a), <- (twin_twin b). congruence. Qed.

Lemma twin_neq e : Z.lxor e 1 <> e.
Proof.
  intros H. assert (E : Z.lxor (Z.lxor e e) 1 = Z.lxor e e).
  { rewrite Z.lxor_assoc. congruence. }
  rewrite Z.lxor_nilpotent in E. discriminate.
Qed.

Lemma even_cases e : (Z.even e = true /\ e mod 2 = 0) \/ (Z.even e = false /\ e mod 2 = 1).
Proof.
  rewrite Zmod_even. destruct (Z.even e); auto.
Qed.

(** The edge number of an arc (both arcs of an edge have the same one). *)
Lemma twin_div2 e : 0 <= e -> Z.lxor e 1 / 2 = e / 2.
Proof.
  intros H. rewrite lxor_1 by lia. destruct (even_cases e) as [[E M]|[E M]]; rewrite E.
  - Z.div_mod_to_equations; lia.
  - Z.div_mod_to_equations; lia.
Qed.

Lemma div2_eq_twin a b : 0 <= a -> 0 <= b -> a / 2 = b / 2 -> a = b \/ a = Z.lxor b 1.
Proof.
  intros Ha Hb H. rewrite lxor_1 by lia.
  destruct (even_cases a) as [[Ea Ma]|[Ea Ma]], (even_cases b) as [[Eb Mb]|[Eb Mb]]; rewrite Eb;
  Z.div_mod_to_equations; lia.
Qed.

Lemma twin_range e k : 0 <= e -> Z.even k = true -> 0 <= k -> (e < k <-> Z.lxor e 1 < k).
Proof.
  intros He Hk H0. rewrite lxor_1 by lia.
  destruct (even_cases k) as [[Ek Mk]|[Ek Mk]]; [|congruence].
  destruct (even_cases e) as [[E M]|[E M]]; rewrite E; Z.div_mod_to_equations; lia.
Qed.

Lemma twin_ge e k : 0 <= e -> Z.even k = true -> 0 <= k -> (k <= e <-> k <= Z.lxor e 1).
Proof. intros. pose proof (twin_range e k H H0 H1). lia. Qed.

(** ** Loops *)
Lemma for_up_inv {A} (P : Z -> A -> Prop) (body : Z -> A -> res A) n : forall i s,
  P i s ->
  (forall k s, i <= k < i + Z.of_nat n -> P k s -> wp (body k s) (P (k + 1))) ->
  wp (for_up n i body s) (P (i + Z.of_nat n)).
Proof.
  induction n as [|n IH]; intros i s H0 HS; cbn [for_up].
  - apply wp_ret. replace (i + Z.of_nat 0) with i by lia. auto.
  - apply wp_bind. eapply wp_mono; [apply HS; [lia|exact H0]|]. intros s' H1.
    replace (i + Z.of_nat (S n)) with (i + 1 + Z.of_nat n) by lia.
    apply IH; auto. intros k s2 Hk. apply HS. lia.
Qed.
