(** * OutP: a K5 or K3,3 of a graph with one more vertex contains a K4 or K2,3 without it. *)
From Verif Require Import Base BaseP PlanSpec OutSpec.

Lemma path_sub (V : Z -> Prop) (E E' : Z -> Z -> Prop) L x y : (forall u w, V u -> V w -> E' u w -> E u w) -> (forall u, In u L -> V u) -> path_in E' L x y -> path_in E L x y.
Proof.
  intros HE HL. induction 1 as [H|y z Hp IH He Hz]; [now constructor|]. apply (path_step _ _ _ y); auto. apply HE; auto. apply HL. now inversion Hp.
Qed.
Lemma conn_sub (V : Z -> Prop) (E E' : Z -> Z -> Prop) L : (forall u w, V u -> V w -> E' u w -> E u w) -> (forall u, In u L -> V u) -> conn_set E' L -> conn_set E L.
Proof. intros HE HL [N C]. split; [auto|]. intros x y Hx Hy. eapply path_sub; eauto. Qed.
Lemma touch_sub (V : Z -> Prop) (E E' : Z -> Z -> Prop) A B : (forall u w, V u -> V w -> E' u w -> E u w) -> (forall u, In u A -> V u) -> (forall u, In u B -> V u) -> touching E' A B -> touching E A B.
Proof. intros HE HA HB (x & y & Hx & Hy & H). exists x, y. auto. Qed.
Lemma pick (P : Z -> Prop) n : (forall i, {P i} + {~ P i}) -> 0 <= n -> (exists k, 1 <= k <= n /\ P k) \/ (forall k, 1 <= k <= n -> ~ P k).
Proof.
  intros D. revert n. apply natlike_ind; [right; intros; lia|]. intros n Hn [(k & Hk & H)|H]; [left; exists k; split; [lia|auto]|].
  destruct (D (Z.succ n)) as [H1|H1]; [left; exists (Z.succ n); split; [lia|auto]|]. right. intros k Hk. destruct (Z.eq_dec k (Z.succ n)) as [->|N]; [auto|apply H; lia].
Qed.
(** At most one of the sets has the extra vertex. *)
Lemma pick_set (a : Z) (S : Z -> list Z) n : 1 <= n -> (forall i j x, 1 <= i < j -> j <= n -> In x (S i) -> ~ In x (S j)) ->
  exists k, 1 <= k <= n /\ forall i, 1 <= i <= n -> i <> k -> ~ In a (S i).
Proof.
  intros Hn D. destruct (pick (fun i => In a (S i)) n) as [(k & Hk & H)|H]; [intros i; apply in_dec, Z.eq_dec|lia| |].
  - exists k. split; [auto|]. intros i Hi N H'. destruct (Z.lt_ge_cases i k); [apply (D i k a)|apply (D k i a)]; auto; lia.
  - exists 1. split; [lia|]. auto.
Qed.
Lemma apex_minor (V : Z -> Prop) (E E' : Z -> Z -> Prop) a : (forall x y, V x -> V y -> E' x y -> E x y) -> (forall x y, E x y -> E y x) ->
  kuratowski (fun z => V z \/ z = a) E' -> outer_obstruction V E.
Proof.
  intros HE Sy [(S & C & D & T)|(S & C & D & T)].
  - destruct (pick_set a S 5) as (k & Hk & Av); [lia|exact D|]. set (f := fun i => if i <? k then i else i + 1).
    assert (Hf : forall i, 1 <= i <= 4 -> 1 <= f i <= 5 /\ f i <> k) by (intros i Hi; unfold f; destruct (Z.ltb_spec i k); lia).
    assert (Hl : forall i j, i < j -> f i < f j) by (intros i j Hi; unfold f; destruct (Z.ltb_spec i k), (Z.ltb_spec j k); lia).
    assert (HV : forall i, 1 <= i <= 4 -> forall x, In x (S (f i)) -> V x).
    { intros i Hi x Hx. destruct (Hf i Hi) as [F1 F2]. destruct (proj2 (C _ F1) x Hx) as [Q| ->]; [exact Q|]. elim (Av _ F1 F2 Hx). }
    left. exists (fun i => S (f i)). split; [|split].
    + intros i Hi. destruct (C _ (proj1 (Hf i Hi))) as [C1 _]. split; [apply (conn_sub V E E'); auto; now apply HV|now apply HV].
    + intros i j x Hi Hj. pose proof (Hf i ltac:(lia)). pose proof (Hf j ltac:(lia)). pose proof (Hl i j ltac:(lia)). apply D; lia.
    + intros i j Hi Hj. pose proof (Hf i ltac:(lia)). pose proof (Hf j ltac:(lia)). pose proof (Hl i j ltac:(lia)). apply (touch_sub V E E'); auto; [apply HV; lia|apply HV; lia|apply T; lia].
  - destruct (pick_set a S 6) as (k & Hk & Av); [lia|exact D|].
    assert (HV : forall i, 1 <= i <= 6 -> i <> k -> forall x, In x (S i) -> V x).
    { intros i Hi N x Hx. destruct (proj2 (C _ Hi) x Hx) as [Q| ->]; [exact Q|]. elim (Av _ Hi N Hx). }
    set (f := fun i => if k <=? 3 then (if i <? k then i else i + 1) else if i <=? 2 then (if i + 3 <? k then i + 3 else i + 4) else i - 2).
    assert (Hf : forall i, 1 <= i <= 5 -> 1 <= f i <= 6 /\ f i <> k) by (intros i Hi; unfold f; destruct (Z.leb_spec k 3), (Z.ltb_spec i k), (Z.leb_spec i 2), (Z.ltb_spec (i + 3) k); lia).
    assert (Hi' : forall i j, 1 <= i <= 5 -> 1 <= j <= 5 -> i <> j -> f i <> f j).
    { intros i j Hi Hj. unfold f. destruct (Z.leb_spec k 3); [destruct (Z.ltb_spec i k), (Z.ltb_spec j k); lia|]. destruct (Z.leb_spec i 2), (Z.leb_spec j 2), (Z.ltb_spec (i + 3) k), (Z.ltb_spec (j + 3) k); lia. }
    assert (D' : forall i j x, 1 <= i <= 6 -> 1 <= j <= 6 -> i <> j -> In x (S i) -> ~ In x (S j)).
    { intros i j x Hi Hj N H1 H2. destruct (Z.lt_ge_cases i j); [apply (D i j x)|apply (D j i x)]; auto; lia. }
    right. exists (fun i => S (f i)). split; [|split].
    + intros i Hi. destruct (Hf i Hi) as [F1 F2]. destruct (C _ F1) as [C1 _]. split; [apply (conn_sub V E E'); auto; now apply HV|now apply HV].
    + intros i j x Hi Hj. apply D'; [apply Hf; lia|apply Hf; lia|apply Hi'; lia].
    + intros i j Hi Hj. destruct (Hf i ltac:(lia)) as [F1 F2], (Hf j ltac:(lia)) as [F3 F4]. destruct (Z.leb_spec k 3) as [L|L].
      * apply (touch_sub V E E'); auto; [now apply HV|now apply HV|]. apply T; unfold f; destruct (Z.leb_spec k 3), (Z.ltb_spec i k), (Z.ltb_spec j k); lia.
      * assert (Q : touching E (S (f j)) (S (f i))).
        { apply (touch_sub V E E'); auto; [now apply HV|now apply HV|]. apply T; unfold f; destruct (Z.leb_spec k 3), (Z.leb_spec i 2), (Z.leb_spec j 2), (Z.ltb_spec (i + 3) k); lia. }
        destruct Q as (x & y & H1 & H2 & H3). exists y, x. auto.
Qed.
