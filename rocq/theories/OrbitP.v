(** * OrbitP: iterating an injective function on a finite set; counting classes. *)
From Verif Require Import Base BaseP TestSpec.
From Coq Require Import Wf_nat Permutation.

Lemma iter_0 {A} (f : A -> A) x : Nat.iter 0 f x = x.
Proof. reflexivity. Qed.
Lemma iter_S {A} (f : A -> A) n x : Nat.iter (S n) f x = f (Nat.iter n f x).
Proof. reflexivity. Qed.
Lemma iter_add {A} (f : A -> A) a b x : Nat.iter (a + b) f x = Nat.iter a f (Nat.iter b f x).
Proof. induction a; [reflexivity|]. change (S a + b)%nat with (S (a + b)). now rewrite !iter_S, IHa. Qed.
Lemma iter_S' {A} (f : A -> A) n x : Nat.iter (S n) f x = Nat.iter n f (f x).
Proof. replace (S n) with (n + 1)%nat by lia. now rewrite iter_add. Qed.

Section Orbit.
Variable f : Z -> Z.
Variable L : list Z.
Hypothesis closed : forall x, In x L -> In (f x) L.
Hypothesis inj : forall x y, In x L -> In y L -> f x = f y -> x = y.

Lemma iter_in k x : In x L -> In (Nat.iter k f x) L.
Proof. intros H; induction k; rewrite ?iter_S; auto. Qed.

Lemma iter_inj k x y : In x L -> In y L -> Nat.iter k f x = Nat.iter k f y -> x = y.
Proof.
  intros Hx Hy; induction k; rewrite ?iter_S; auto.
  intros E. apply IHk, inj; auto using iter_in.
Qed.

Lemma iter_cancel i j x : In x L -> (i < j)%nat -> Nat.iter i f x = Nat.iter j f x -> Nat.iter (j - i) f x = x.
Proof.
  intros Hx Hij E. symmetry. apply (iter_inj i); auto using iter_in.
  rewrite <- iter_add. rewrite E. f_equal. lia.
Qed.

Lemma not_nodup_map {A} (h : nat -> A) (dec : forall x y : A, {x = y} + {x <> y}) a n :
  ~ NoDup (map h (seq a n)) -> exists i j, (a <= i < j)%nat /\ (j < a + n)%nat /\ h i = h j.
Proof.
  revert a; induction n as [|n IH]; intros a H; cbn in H.
  - exfalso; apply H; constructor.
  - destruct (in_dec dec (h a) (map h (seq (S a) n))) as [Hi|Hn].
    + apply in_map_iff in Hi as (j & E & Hj). apply in_seq in Hj. exists a, j. repeat split; auto; lia.
    + destruct (IH (S a)) as (i & j & H1 & H2 & H3).
      * intros N. apply H. constructor; auto.
      * exists i, j. repeat split; auto; lia.
Qed.

Lemma orbit_period x : In x L ->
  exists p, (1 <= p <= length L)%nat /\ Nat.iter p f x = x /\
    NoDup (map (fun k => Nat.iter k f x) (seq 1 p)) /\
    (forall k, (1 <= k < p)%nat -> Nat.iter k f x <> x).
Proof.
  intros Hx.
  assert (ex : exists p, (1 <= p <= length L)%nat /\ Nat.iter p f x = x).
  { destruct (not_nodup_map (fun k => Nat.iter k f x) Z.eq_dec 0 (S (length L))) as (i & j & H1 & H2 & H3).
    - intros N. apply (NoDup_incl_length (l' := L)) in N.
      + rewrite map_length, seq_length in N. lia.
      + intros y Hy. apply in_map_iff in Hy as (k & <- & _). now apply iter_in.
    - exists (j - i)%nat. split; [lia|]. apply iter_cancel; auto; lia. }
  destruct (dec_inh_nat_subset_has_unique_least_element (fun p => (1 <= p <= length L)%nat /\ Nat.iter p f x = x))
    as (p & ((Hp & Ep) & Hmin) & _).
  - intros n. destruct (Z.eq_dec (Nat.iter n f x) x).
    + destruct (le_lt_dec 1 n). { destruct (le_lt_dec n (length L)); [left; auto|right; lia]. } right; lia.
    + right; tauto.
  - exact ex.
  - exists p. split; [auto|]. split; [auto|].
    assert (M : forall k, (1 <= k < p)%nat -> Nat.iter k f x <> x).
    { intros k Hk E. specialize (Hmin k). lia. }
    split; [|exact M].
    destruct (ListDec.NoDup_dec Z.eq_dec (map (fun k => Nat.iter k f x) (seq 1 p))) as [N|N]; [auto|exfalso].
    apply (not_nodup_map _ Z.eq_dec) in N as (i & j & H1 & H2 & H3).
    apply iter_cancel in H3; auto; [|lia]. apply (M (j - i)%nat); auto; lia.
Qed.

Lemma iter_mod p x k : Nat.iter p f x = x -> Nat.iter (k * p) f x = x.
Proof. intros E; induction k; [reflexivity|]. change (S k * p)%nat with (p + k * p)%nat. rewrite iter_add, IHk; auto. Qed.

Lemma orbit_sym a b k : In a L -> Nat.iter k f a = b -> exists j, Nat.iter j f b = a.
Proof.
  intros Ha <-. destruct (orbit_period a Ha) as (p & Hp & E & _).
  exists (k * p - k)%nat. rewrite <- iter_add.
  replace (k * p - k + k)%nat with (k * p)%nat by nia.
  now apply iter_mod.
Qed.

Lemma orbit_in_list a p k : In a L -> (1 <= p)%nat -> Nat.iter p f a = a ->
  In (Nat.iter k f a) (map (fun k => Nat.iter k f a) (seq 1 p)).
Proof.
  intros Ha Hp E. apply in_map_iff.
  destruct (Nat.eq_dec (k mod p) 0) as [Z0|Z0].
  - exists p. split; [|apply in_seq; lia].
    rewrite E. rewrite (Nat.div_mod k p) by lia. rewrite Z0, Nat.add_0_r, Nat.mul_comm.
    symmetry. now apply iter_mod.
  - exists (k mod p)%nat. split; [|apply in_seq; pose proof (Nat.mod_upper_bound k p); lia].
    assert (D : k = (k mod p + (k / p) * p)%nat) by (pose proof (Nat.div_mod k p); lia).
    transitivity (Nat.iter (k mod p + (k / p) * p) f a); [|now rewrite <- D].
    rewrite iter_add, iter_mod; auto.
Qed.
End Orbit.

(** ** Counting classes *)
Lemma inj_rel_le {A B} (R : A -> B -> Prop) (l : list A) : forall (l' : list B), NoDup l ->
  (forall x, In x l -> exists y, In y l' /\ R x y) ->
  (forall x x' y, In x l -> In x' l -> In y l' -> R x y -> R x' y -> x = x') ->
  (length l <= length l')%nat.
Proof.
  induction l as [|x l IH]; intros l' N T I; [cbn; lia|].
  inversion N; subst.
  destruct (T x) as (y & Hy & Rxy); [now left|].
  apply in_split in Hy as (l1 & l2 & ->).
  rewrite app_length; cbn.
  assert (length l <= length (l1 ++ l2))%nat; [|rewrite app_length in *; lia].
  apply IH; auto.
  - intros x' Hx'. destruct (T x') as (y' & Hy' & R'); [now right|].
    exists y'; split; auto. apply in_app_iff in Hy' as [|[E|]]; try (apply in_app_iff; tauto).
    subst y'. exfalso. assert (x' = x) by (apply (I x' x y); auto; [now right|now left|apply in_app_iff; right; now left]). subst; auto.
  - intros a b y' Ha Hb Hy'. apply I; try now right. apply in_app_iff in Hy' as []; apply in_app_iff; [now left|right; now right].
Qed.

Lemma num_classes_unique (P : Z -> Prop) (R : Z -> Z -> Prop) n m :
  (forall a b, P a -> P b -> R a b -> R b a) -> (forall a b c, P a -> R a b -> R b c -> R a c) ->
  num_classes P R n -> num_classes P R m -> n = m.
Proof.
  intros Hs Ht.
  assert (W : forall n m, num_classes P R n -> num_classes P R m -> n <= m).
  { clear n m. intros n m (rs & N & HP & I & C & ->) (rs' & N' & HP' & I' & C' & ->).
    enough (length rs <= length rs')%nat by lia.
    apply (inj_rel_le (fun x y => R y x)); auto.
    intros x x' y Hx Hx' Hy H1 H2. apply I; auto. apply (Ht x y x'); auto. }
  intros A B. apply Z.le_antisymm; auto.
Qed.
