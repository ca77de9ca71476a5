(** * PlanDec: whether a finite graph contains a K5 or K3,3 minor can be decided, so that not being without one means having one. *)
From Coq Require Import ZifyBool.
From Verif Require Import Base BaseP GraphRec GraphSpec DFSSpec TestSpec PlanSpec.

Definition dec (P : Prop) : Prop := P \/ ~ P.
Lemma dec_and P Q : dec P -> dec Q -> dec (P /\ Q).
Proof. unfold dec. tauto. Qed.
Lemma dec_or P Q : dec P -> dec Q -> dec (P \/ Q).
Proof. unfold dec. tauto. Qed.
Lemma dec_iff P Q : (P <-> Q) -> dec P -> dec Q.
Proof. unfold dec. tauto. Qed.
Lemma dec_ex {A} (P : A -> Prop) l : (forall x, In x l -> dec (P x)) -> dec (exists x, In x l /\ P x).
Proof.
  induction l as [|a l IH]; intros H; [right; intros (x & [] & _)|].
  destruct (H a (or_introl eq_refl)) as [Ha|Ha]; [left; exists a; split; [now left|auto]|].
  destruct IH as [(x & H1 & H2)|Hn]; [intros x Hx; apply H; now right|left; exists x; split; [now right|auto]|].
  right. intros (x & [<-|H1] & H2); [auto|]. apply Hn. eauto.
Qed.
Lemma dec_all {A} (P : A -> Prop) l : (forall x, In x l -> dec (P x)) -> dec (forall x, In x l -> P x).
Proof.
  induction l as [|a l IH]; intros H; [left; intros x []|].
  destruct (H a (or_introl eq_refl)) as [Ha|Ha]; [|right; intros Q; apply Ha, Q; now left].
  destruct IH as [Hl|Hn]; [intros x Hx; apply H; now right|left; intros x [<-|Hx]; auto|].
  right. intros Q. apply Hn. intros x Hx. apply Q. now right.
Qed.

Section Dec.
Variables (n : Z) (E : Z -> Z -> Prop).
Hypothesis HE : forall x y, dec (E x y).

(** Walks with all vertices between the ends in a list. *)
Inductive walk (L : list Z) : Z -> Z -> Prop :=
| walk_e x y : E x y -> walk L x y
| walk_s x y z : E x y -> In y L -> walk L y z -> walk L x z.
Lemma walk_incl L L' x y : incl L L' -> walk L x y -> walk L' x y.
Proof. intros I H. induction H; [now constructor|]. econstructor 2; eauto. Qed.
Lemma walk_trans L x a y : walk L x a -> In a L -> walk L a y -> walk L x y.
Proof. intros H. induction H; intros Ha Hy; [econstructor 2; eauto|]. econstructor 2; eauto. Qed.
Lemma walk_cons a L x y : walk (a :: L) x y <-> walk L x y \/ (walk L x a /\ walk L a y).
Proof.
  split.
  - intros H. induction H as [x y H|x y z H [<-|Hy] Hw IH]; [left; now constructor| |].
    + right. split; [now constructor|]. destruct IH as [IH|[_ IH]]; auto.
    + destruct IH as [IH|[I1 I2]]; [left; econstructor 2; eauto|right; split; [econstructor 2; eauto|auto]].
  - intros [H|[H1 H2]]; [apply (walk_incl L); [intros z; now right|auto]|].
    apply (walk_trans _ _ a); [|now left|]; (apply (walk_incl L); [intros z; now right|auto]).
Qed.
Lemma walk_dec L : forall x y, dec (walk L x y).
Proof.
  induction L as [|a L IH]; intros x y.
  - apply (dec_iff (E x y)); [|apply HE]. split; [now constructor|]. intros H. inversion H; [auto|contradiction].
  - apply (dec_iff _ _ (iff_sym (walk_cons a L x y))). apply dec_or; [apply IH|apply dec_and; apply IH].
Qed.
Lemma path_snoc L x y : path_in E L x y -> In x L /\ In y L.
Proof. intros H. induction H as [H|y z H IH He Hz]; [auto|]. tauto. Qed.
Lemma path_walk L x y : path_in E L x y <-> In x L /\ In y L /\ (x = y \/ walk L x y).
Proof.
  split.
  - intros H. destruct (path_snoc _ _ _ H) as [Hx Hy]. do 2 (split; [auto|]). clear Hy. induction H as [H|y z H IH He Hz]; [now left|].
    right. destruct IH as [->|IH]; [now constructor|]. apply (walk_trans _ _ y); [auto|apply (path_snoc _ _ _ H)|now constructor].
  - intros (Hx & Hy & [->|H]); [now constructor|].
    assert (G : forall x y, walk L x y -> forall s, path_in E L s x -> In y L -> path_in E L s y).
    { intros a b W. induction W as [a b W|a b c W Hb Wb IH]; intros s Hs Hl; [econstructor 2; eauto|]. apply IH; [econstructor 2; eauto|auto]. }
    apply (G x y H); [now constructor|auto].
Qed.
Lemma path_dec L x y : dec (path_in E L x y).
Proof.
  apply (dec_iff _ _ (iff_sym (path_walk L x y))). apply dec_and; [destruct (in_dec Z.eq_dec x L); [now left|now right]|].
  apply dec_and; [destruct (in_dec Z.eq_dec y L); [now left|now right]|]. apply dec_or; [destruct (Z.eq_dec x y); [now left|now right]|apply walk_dec].
Qed.
Lemma conn_dec L : dec (conn_set E L).
Proof.
  apply dec_and; [destruct L; [now right; intros []|left; discriminate]|].
  apply (dec_iff (forall x, In x L -> forall y, In y L -> path_in E L x y)); [firstorder|].
  apply dec_all. intros x _. apply dec_all. intros y _. apply path_dec.
Qed.
Lemma touch_dec A B : dec (touching E A B).
Proof.
  apply (dec_iff (exists x, In x A /\ exists y, In y B /\ E x y)); [unfold touching; firstorder|].
  apply dec_ex. intros x _. apply dec_ex. intros y _. apply HE.
Qed.
Lemma conn_same L L' : (forall x, In x L <-> In x L') -> conn_set E L -> conn_set E L'.
Proof.
  intros Q [Ne H]. split.
  - intros ->. destruct L as [|a L]; [auto|]. apply (proj1 (Q a)). now left.
  - intros x y Hx Hy. apply Q in Hx, Hy. specialize (H x y Hx Hy). clear Hy. induction H as [H|y z H IH He Hz]; [constructor; now apply Q|].
    econstructor 2; [exact IH|exact He|now apply Q].
Qed.

(** Families of up to six disjoint sets of vertices are labellings of the vertices. *)
Definition vs : list Z := map (fun i : nat => Z.of_nat i + 1) (seq 0 (Z.to_nat n)).
Lemma in_vs x : In x vs <-> 1 <= x <= n.
Proof.
  unfold vs. rewrite in_map_iff. split.
  - intros (i & <- & Hi). apply in_seq in Hi. lia.
  - intros Hx. exists (Z.to_nat (x - 1)). split; [lia|]. apply in_seq. lia.
Qed.
Fixpoint labels (l : list Z) : list (Z -> Z) :=
  match l with [] => [fun _ => 0] | x :: l' => flat_map (fun f => map (fun c => upd f x c) [0; 1; 2; 3; 4; 5; 6]) (labels l') end.
Lemma labels_ok (f : Z -> Z) l : (forall x, 0 <= f x <= 6) -> exists k, In k (labels l) /\ forall x, In x l -> k x = f x.
Proof.
  intros Hf. induction l as [|a l (k & H1 & H2)]; [exists (fun _ => 0); split; [now left|intros x []]|].
  exists (upd k a (f a)). split.
  - cbn [labels]. apply in_flat_map. exists k. split; [auto|]. apply in_map_iff. exists (f a). split; [reflexivity|].
    assert (Q : f a = 0 \/ f a = 1 \/ f a = 2 \/ f a = 3 \/ f a = 4 \/ f a = 5 \/ f a = 6) by (pose proof (Hf a); lia). cbn [In]. intuition.
  - intros x [<-|Hx]; unfold upd; [now rewrite Z.eqb_refl|]. destruct (Z.eqb_spec x a) as [->|]; auto.
Qed.

Variables (k : Z) (T : Z -> Z -> Prop).
Hypotheses (Hk : 1 <= k <= 6) (HT : forall i j, dec (T i j)) (Tk : forall i j, T i j -> 1 <= i <= k /\ 1 <= j <= k).
Definition is_ : list Z := filter (fun i => i <=? k) [1; 2; 3; 4; 5; 6].
Lemma in_is i : In i is_ <-> 1 <= i <= k.
Proof. unfold is_. rewrite filter_In. cbn [In]. lia. Qed.
Definition pat (S : Z -> list Z) : Prop :=
  (forall i, 1 <= i <= k -> conn_set E (S i) /\ forall x, In x (S i) -> 1 <= x <= n) /\
  (forall i j x, 1 <= i < j -> j <= k -> In x (S i) -> ~ In x (S j)) /\
  (forall i j, T i j -> touching E (S i) (S j)).
Definition ext (f : Z -> Z) (i : Z) : list Z := filter (fun x => f x =? i) vs.
Lemma in_ext f i x : In x (ext f i) <-> 1 <= x <= n /\ f x = i.
Proof. unfold ext. rewrite filter_In, in_vs. split; intros [H1 H2]; (split; [auto|lia]). Qed.
Lemma pat_ext f : (forall i, 1 <= i <= k -> conn_set E (ext f i)) -> (forall i j, T i j -> touching E (ext f i) (ext f j)) -> pat (ext f).
Proof.
  intros H1 H2. split; [|split; [|exact H2]].
  - intros i Hi. split; [now apply H1|]. intros x Hx. now apply in_ext in Hx.
  - intros i j x Hi Hj A B. apply in_ext in A, B. lia.
Qed.
Lemma pat_dec : dec (exists S, pat S).
Proof.
  set (P := fun f => (forall i, In i is_ -> conn_set E (ext f i)) /\ (forall i, In i is_ -> forall j, In j is_ -> ~ T i j \/ touching E (ext f i) (ext f j))).
  apply (dec_iff (exists f, In f (labels vs) /\ P f)).
  2:{ apply dec_ex. intros f _. apply dec_and; apply dec_all; intros i _; [apply conn_dec|]. apply dec_all. intros j _.
      apply dec_or; [destruct (HT i j); [now right; intros Q; apply Q|now left]|apply touch_dec]. }
  split.
  - intros (f & _ & P1 & P2). exists (ext f). apply pat_ext.
    + intros i Hi. apply P1. now apply in_is.
    + intros i j Q. destruct (Tk _ _ Q) as [Q1 Q2]. destruct (P2 i ltac:(now apply in_is) j ltac:(now apply in_is)); [contradiction|auto].
  - intros (S & K1 & K2 & K3).
    set (f := fun x => hd 0 (filter (fun i => if in_dec Z.eq_dec x (S i) then true else false) is_)).
    assert (F1 : forall x, (f x = 0 /\ forall i, 1 <= i <= k -> ~ In x (S i)) \/ (1 <= f x <= k /\ In x (S (f x)))).
    { intros x. unfold f. destruct (filter _ is_) as [|a l] eqn:Ef; cbn [hd].
      - left. split; [auto|]. intros i Hi Q. apply in_is in Hi. assert (Z : In i []) by (rewrite <- Ef; apply filter_In; split; [auto|]; destruct (in_dec Z.eq_dec x (S i)); auto). destruct Z.
      - right. assert (Z : In a (a :: l)) by now left. rewrite <- Ef in Z. apply filter_In in Z. destruct Z as [Z1 Z2]. apply in_is in Z1. split; [auto|]. destruct (in_dec Z.eq_dec x (S a)); [auto|discriminate]. }
    assert (F2 : forall i x, 1 <= i <= k -> In x (S i) -> f x = i).
    { intros i x Hi Hx. destruct (F1 x) as [[_ Q]|[Q1 Q2]]; [elim (Q i Hi Hx)|]. destruct (Z.lt_trichotomy (f x) i) as [L|[L|L]]; [|auto|].
      - elim (K2 (f x) i x ltac:(lia) ltac:(lia) Q2 Hx).
      - elim (K2 i (f x) x ltac:(lia) ltac:(lia) Hx Q2). }
    destruct (labels_ok f vs) as (g & G1 & G2); [intros x; destruct (F1 x); lia|].
    assert (Same : forall i, 1 <= i <= k -> forall x, In x (S i) <-> In x (ext g i)).
    { intros i Hi x. rewrite in_ext. split.
      - intros Hx. pose proof (proj2 (K1 i Hi) x Hx) as Vx. split; [auto|]. rewrite G2 by now apply in_vs. auto.
      - intros [Vx Q]. rewrite G2 in Q by now apply in_vs. destruct (F1 x) as [[Q1 _]|[_ Q1]]; [lia|]. now rewrite Q in Q1. }
    exists g. split; [auto|]. split.
    + intros i Hi. apply in_is in Hi. apply (conn_same (S i)); [now apply Same|now apply K1].
    + intros i Hi j Hj. apply in_is in Hi, Hj. destruct (HT i j) as [Q|Q]; [right|now left]. destruct (K3 i j Q) as (x & y & A & B & C).
      exists x, y. split; [now apply Same|]. split; [now apply Same|auto].
Qed.
End Dec.

Lemma kuratowski_dec n (V : Z -> Prop) E : (forall x, V x <-> 1 <= x <= n) -> (forall x y, dec (E x y)) -> dec (kuratowski V E).
Proof.
  intros HV HE. apply dec_or.
  - apply (dec_iff (exists S, pat n E 5 (fun i j => 1 <= i < j /\ j <= 5) S)).
    + split; intros (S & K1 & K2 & K3); exists S; (split; [|split; [auto|]]).
      * intros i Hi. destruct (K1 i Hi) as [A B]. split; [auto|]. intros x Hx. now apply HV, B.
      * intros i j H1 H2. apply K3. auto.
      * intros i Hi. destruct (K1 i Hi) as [A B]. split; [auto|]. intros x Hx. now apply HV, B.
      * intros i j [H1 H2]. now apply K3.
    + apply pat_dec; auto; try lia. intros i j. unfold dec. lia.
  - apply (dec_iff (exists S, pat n E 6 (fun i j => 1 <= i <= 3 /\ 4 <= j <= 6) S)).
    + split; intros (S & K1 & K2 & K3); exists S; (split; [|split; [auto|]]).
      * intros i Hi. destruct (K1 i Hi) as [A B]. split; [auto|]. intros x Hx. now apply HV, B.
      * intros i j H1 H2. apply K3. auto.
      * intros i Hi. destruct (K1 i Hi) as [A B]. split; [auto|]. intros x Hx. now apply HV, B.
      * intros i j [H1 H2]. now apply K3.
    + apply pat_dec; auto; try lia. intros i j. unfold dec. lia.
Qed.
Lemma adjacent_dec g adj x y : dec (adjacent g adj x y).
Proof. apply dec_ex. intros e _. destruct (Z.eq_dec (enbr g e) y); [now left|now right]. Qed.
Lemma graph_kuratowski_dec g adj : dec (kuratowski (primary g) (adjacent g adj)).
Proof. apply (kuratowski_dec (gN g)); [intros x; reflexivity|intros x y; apply adjacent_dec]. Qed.
