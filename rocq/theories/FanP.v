(** * FanP: cycles of vertices with non-crossing chords, apart from the code: the shape of the
    components of an outerplanar embedding. *)
From Coq Require Import ZifyBool.
From Verif Require Import Base BaseP LinkP.

(** ** Subsequences *)
Inductive sub : list Z -> list Z -> Prop :=
| sub_nil l : sub [] l
| sub_take x k l : sub k l -> sub (x :: k) (x :: l)
| sub_skip x k l : sub k l -> sub k (x :: l).
Lemma sub_refl l : sub l l.
Proof. induction l; constructor; auto. Qed.
Lemma sub_in k l x : sub k l -> In x k -> In x l.
Proof. induction 1; cbn [In]; tauto. Qed.
Lemma sub_app k l k' l' : sub k l -> sub k' l' -> sub (k ++ k') (l ++ l').
Proof.
  intros H H'. induction H; cbn [app].
  - induction l; [auto|]. now constructor.
  - now constructor.
  - now constructor.
Qed.
Lemma sub_split k1 x k2 l : sub (k1 ++ x :: k2) l -> exists l1 l2, l = l1 ++ x :: l2 /\ sub k1 l1 /\ sub k2 l2.
Proof.
  remember (k1 ++ x :: k2) as k eqn:E. intros H. revert k1 E. induction H as [l|y k l H IH|y k l H IH]; intros k1 E.
  - destruct k1; discriminate.
  - destruct k1 as [|z k1]; cbn [app] in E; injection E as <- ->.
    + exists [], l. split; [auto|]. split; [constructor|auto].
    + destruct (IH k1 eq_refl) as (l1 & l2 & -> & S1 & S2). exists (y :: l1), l2. split; [auto|]. split; [now constructor|auto].
  - destruct (IH k1 E) as (l1 & l2 & -> & S1 & S2). exists (y :: l1), l2. split; [auto|]. split; [now constructor|auto].
Qed.
Lemma sub_trans a b c : sub a b -> sub b c -> sub a c.
Proof.
  intros H K. revert a H. induction K as [l|x k l K IH|x k l K IH]; intros a H.
  - inversion H; constructor.
  - inversion H; subst; [constructor|constructor; auto|constructor; auto].
  - constructor. auto.
Qed.
Lemma sub_drop A L : sub L (A ++ L).
Proof. induction A; [apply sub_refl|now constructor]. Qed.
Lemma sub_rev k l : sub k l -> sub (rev k) (rev l).
Proof.
  induction 1; cbn [rev].
  - constructor.
  - apply sub_app; [auto|apply sub_refl].
  - rewrite <- (app_nil_r (rev k)). apply sub_app; [auto|constructor].
Qed.


Lemma sub_nodup k l : sub k l -> NoDup l -> NoDup k.
Proof. induction 1; intros Nd; [constructor|..]; apply NoDup_cons_iff in Nd; destruct Nd as [N1 N2]; [constructor; [intros Hx; apply N1; eapply sub_in; eauto|auto]|auto]. Qed.
Lemma sub_map (f : Z -> Z) k l : sub k l -> sub (map f k) (map f l).
Proof. induction 1; cbn [map]; constructor; auto. Qed.
Lemma sub_keep k l1 l2 : sub k l1 -> sub k (l1 ++ l2).
Proof. intros H. rewrite <- (app_nil_r k). apply sub_app; [auto|constructor]. Qed.
Lemma sub_mid k1 k2 l1 m l2 : sub k1 l1 -> sub k2 l2 -> sub (k1 ++ k2) (l1 ++ m ++ l2).
Proof. intros H1 H2. apply sub_app; [auto|]. eapply sub_trans; [exact H2|apply sub_drop]. Qed.
Lemma sub_widen l1 m l2 : sub (l1 ++ l2) (l1 ++ m ++ l2).
Proof. apply sub_mid; apply sub_refl. Qed.
Lemma sub_nil_inv k : sub k [] -> k = [].
Proof. inversion 1; auto. Qed.

(** ** Positions *)
Fixpoint idx (l : list Z) (x : Z) : Z := match l with [] => 0 | y :: r => if x =? y then 0 else 1 + idx r x end.
Local Notation len l := (Z.of_nat (length l)).
Lemma idx_nn l x : 0 <= idx l x.
Proof. induction l as [|y l IH]; cbn [idx]; [lia|]. destruct (x =? y); lia. Qed.
Lemma idx_lt l x : In x l <-> idx l x < len l.
Proof.
  induction l as [|y l IH]; cbn [idx length In]; [lia|]. pose proof (idx_nn l x). destruct (Z.eqb_spec x y) as [->|Ne]; [split; [lia|auto]|].
  rewrite Nat2Z.inj_succ. split; [intros [H0|H0]; [congruence|]; apply IH in H0; lia|]. intros H0. right. apply IH. lia.
Qed.
Lemma idx_app l m x : idx (l ++ m) x = if in_dec Z.eq_dec x l then idx l x else len l + idx m x.
Proof.
  induction l as [|y l IH]; cbn [app idx length]; [destruct (in_dec _ _ _) as [[]|]; lia|]. destruct (Z.eqb_spec x y) as [->|Ne].
  - destruct (in_dec _ y (y :: l)) as [|n]; [auto|]. elim n. now left.
  - rewrite IH. destruct (in_dec _ x l) as [i|n], (in_dec _ x (y :: l)) as [i'|n']; auto; [elim n'; now right|destruct i'; [congruence|contradiction]|lia].
Qed.
Lemma idx_app_l l m x : In x l -> idx (l ++ m) x = idx l x.
Proof. intros H. rewrite idx_app. destruct (in_dec _ _ _); [auto|contradiction]. Qed.
Lemma idx_app_r l m x : ~ In x l -> idx (l ++ m) x = len l + idx m x.
Proof. intros H. rewrite idx_app. destruct (in_dec _ _ _); [contradiction|auto]. Qed.
Lemma idx_hd x l : idx (x :: l) x = 0.
Proof. cbn [idx]. now rewrite Z.eqb_refl. Qed.
Lemma idx_tl x y l : y <> x -> idx (x :: l) y = 1 + idx l y.
Proof. intros H. cbn [idx]. destruct (Z.eqb_spec y x); [contradiction|auto]. Qed.
Lemma idx_mid l1 x l2 : ~ In x l1 -> idx (l1 ++ x :: l2) x = len l1.
Proof. intros H. rewrite idx_app_r by auto. rewrite idx_hd. lia. Qed.
Lemma idx_rev l x : NoDup l -> In x l -> idx (rev l) x = len l - 1 - idx l x.
Proof.
  induction l as [|y l IH]; intros Nd H; [destruct H|]. apply NoDup_cons_iff in Nd. destruct Nd as [N1 N2]. cbn [rev length]. destruct (Z.eqb_spec x y) as [->|Ne].
  - rewrite idx_hd, idx_app_r by (now rewrite <- in_rev). rewrite rev_length, idx_hd. lia.
  - rewrite idx_tl by auto. destruct H as [H|H]; [congruence|]. rewrite idx_app_l by (now rewrite <- in_rev). rewrite IH by auto. lia.
Qed.
Lemma idx_inj l x y : In x l -> In y l -> idx l x = idx l y -> x = y.
Proof.
  induction l as [|z l IH]; intros H1 H2; [destruct H1|]. cbn [idx]. pose proof (idx_nn l x). pose proof (idx_nn l y).
  destruct (Z.eqb_spec x z), (Z.eqb_spec y z); try congruence; try lia. destruct H1, H2; try congruence. intros E. apply IH; auto. lia.
Qed.
Lemma idx_split l1 x l2 y : NoDup (l1 ++ x :: l2) -> In y (l1 ++ x :: l2) -> (In y l1 <-> idx (l1 ++ x :: l2) y < idx (l1 ++ x :: l2) x) /\ (In y l2 <-> idx (l1 ++ x :: l2) x < idx (l1 ++ x :: l2) y).
Proof.
  intros Nd Hy. apply NoDup_mid in Nd as Nd'. destruct Nd' as [Nd1 Nx]. rewrite in_app_iff in Nx. rewrite (idx_mid l1 x l2) by tauto. rewrite idx_app. destruct (in_dec Z.eq_dec y l1) as [i|n].
  - pose proof (proj1 (idx_lt _ _) i). split; [tauto|]. split; [|lia]. intros H2. exfalso. apply (NoDup_app_disj _ _ y Nd1 i H2).
  - pose proof (idx_nn (x :: l2) y). split; [split; [tauto|lia]|]. apply in_app_iff in Hy. cbn [In] in Hy. destruct (Z.eq_dec y x) as [->|Ne].
    + rewrite idx_hd. split; [tauto|lia].
    + rewrite idx_tl by auto. pose proof (idx_nn l2 y). split; [lia|]. intros _. destruct Hy as [|[Q|]]; [tauto|congruence|auto].
Qed.

(** ** Cycles with chords *)
(** [n x] lists the neighbours of x in rotation order, beginning with the next vertex of the cycle. *)
Definition symn (n : Z -> list Z) : Prop := forall x y, In y (n x) -> In x (n y).
Definition nocross (n : Z -> list Z) (C : list Z) : Prop := forall a b c d, In d C -> In a C -> In b C -> In c C ->
  idx C a < idx C b -> idx C b < idx C c -> idx C c < idx C d -> In c (n a) -> In d (n b) -> False.
Record ofan (n : Z -> list Z) (T : Z) (L : list Z) : Prop := {
  of_at : forall L1 x L2, L = L1 ++ x :: L2 -> sub (n x) (L2 ++ T :: L1) /\ hd NIL (n x) = hd T L2 /\ (L1 <> [] -> last (n x) NIL = last L1 NIL);
  of_T : sub (n T) L; of_last : last (n T) NIL = last L NIL; of_nc : nocross n (T :: L) }.
Record cfan (n : Z -> list Z) (T : Z) (L : list Z) : Prop := {
  cf_open : ofan n T L; cf_hd : hd NIL (n T) = hd NIL L; cf_last : last (n (hd NIL L)) NIL = T }.
Definition cover (n : Z -> list Z) (L : list Z) (w : Z) : Prop := exists x y, In x L /\ In y L /\ idx L x < idx L w /\ idx L w < idx L y /\ In y (n x).

Lemma nocross_rot n T L : symn n -> NoDup (T :: L) -> nocross n (T :: L) -> nocross n (L ++ [T]).
Proof.
  intros Sy Nd H a b c d Id Ia Ib Ic L1 L2 L3 E1 E2. apply NoDup_cons_iff in Nd. destruct Nd as [NT Nd].
  assert (K : forall x, In x (L ++ [T]) -> In x L /\ x <> T /\ idx (L ++ [T]) x = idx L x /\ idx L x < len L /\ idx (T :: L) x = 1 + idx L x \/ x = T /\ idx (L ++ [T]) x = len L).
  { intros x Hx. apply in_app_iff in Hx. destruct Hx as [Hx|[<-|[]]]; [left|right]; (split; [auto|]).
    - split; [congruence|]. split; [now apply idx_app_l|]. split; [now apply idx_lt|]. apply idx_tl. congruence.
    - now apply idx_mid. }
  destruct (K a Ia) as [(A1 & A2 & A3 & A4 & A5)|(A1 & A2)]; [|pose proof (idx_nn L d); destruct (K d Id); lia].
  destruct (K b Ib) as [(B1 & B2 & B3 & B4 & B5)|(B1 & B2)]; [|destruct (K c Ic); lia].
  destruct (K c Ic) as [(C1 & C2 & C3 & C4 & C5)|(C1 & C2)]; [|destruct (K d Id); lia].
  destruct (K d Id) as [(D1 & D2 & D3 & D4 & D5)|(D1 & D2)].
  - apply (H a b c d); cbn [In]; auto; lia.
  - subst d. pose proof (idx_nn L a). apply (H T a b c); cbn [In]; auto; rewrite ?idx_hd; try lia; try now apply Sy.
Qed.
Lemma nocross_rev n n' T L : symn n -> NoDup (T :: L) -> (forall x y, In y (n' x) -> In y (n x)) -> nocross n (T :: L) -> nocross n' (T :: rev L).
Proof.
  intros Sy Nd Hn H a b c d Id Ia Ib Ic L1 L2 L3 E1 E2. apply Hn in E1, E2. apply NoDup_cons_iff in Nd. destruct Nd as [NT Nd].
  assert (K : forall x, In x (T :: rev L) -> In x L /\ x <> T /\ idx (T :: rev L) x = len L - idx L x /\ 0 <= idx L x < len L /\ idx (T :: L) x = 1 + idx L x \/ x = T /\ idx (T :: rev L) x = 0).
  { intros x [<-|Hx]; [right; split; [auto|apply idx_hd]|left]. apply in_rev in Hx. split; [auto|]. assert (x <> T) by congruence. split; [auto|]. rewrite !idx_tl, idx_rev by auto. pose proof (idx_nn L x). apply idx_lt in Hx. lia. }
  destruct (K b Ib) as [(B1 & B2 & B3 & B4 & B5)|(B1 & B2)]; [|pose proof (idx_nn (T :: rev L) a); lia].
  destruct (K c Ic) as [(C1 & C2 & C3 & C4 & C5)|(C1 & C2)]; [|lia].
  destruct (K d Id) as [(D1 & D2 & D3 & D4 & D5)|(D1 & D2)]; [|lia].
  destruct (K a Ia) as [(A1 & A2 & A3 & A4 & A5)|(A1 & A2)].
  - apply (H d c b a); cbn [In]; auto; lia.
  - subst a. apply (H T d c b); cbn [In]; auto; rewrite ?idx_hd; try lia; try now apply Sy.
Qed.
Lemma nocross_incl n n' C : (forall x y, In x C -> In y (n' x) -> In y (n x)) -> nocross n C -> nocross n' C.
Proof. intros H K a b c d Id Ia Ib Ic L1 L2 L3 E1 E2. apply (K a b c d); auto. Qed.

(** Mirror image. *)
Lemma cfan_rev n n' T L : symn n -> NoDup (T :: L) -> ~ In NIL L -> L <> [] -> (forall x, In x (T :: L) -> n' x = rev (n x)) -> (forall x y, In y (n' x) -> In y (n x)) -> cfan n T L -> cfan n' T (rev L).
Proof.
  intros Sy Nd NN NL E Hi [O H1 H2]. constructor; [constructor|..].
  - intros L1 x L2 EL. assert (EL' : L = rev L2 ++ x :: rev L1) by (rewrite <- (rev_involutive L), EL, rev_app_distr; cbn [rev]; now rewrite <- app_assoc).
    rewrite E by (right; rewrite EL'; apply in_app_iff; right; now left). destruct (of_at _ _ _ O _ _ _ EL') as (A1 & A2 & A3). rewrite hd_rev, last_rev. split; [|split].
    + apply sub_rev in A1. rewrite rev_app_distr in A1. cbn [rev] in A1. rewrite !rev_involutive, <- app_assoc in A1. exact A1.
    + destruct L2 as [|y L2]; cbn [hd].
      * rewrite EL' in H2. exact H2.
      * rewrite A3; [now rewrite last_rev|]. intros Q. apply (f_equal (@length Z)) in Q. rewrite rev_length in Q. discriminate.
    + intros N1. rewrite A2, hd_rev. destruct (list_snoc L1) as [->|(l & y & ->)]; [congruence|]. now rewrite !last_snoc.
  - rewrite E by (now left). apply sub_rev, (of_T _ _ _ O).
  - rewrite E by (now left). now rewrite !last_rev.
  - apply (nocross_rev n); auto. apply (of_nc _ _ _ O).
  - rewrite E by (now left). rewrite !hd_rev. apply (of_last _ _ _ O).
  - rewrite hd_rev. rewrite E by (right; now apply last_in). rewrite last_rev. destruct (list_snoc L) as [->|(l & y & EL)]; [congruence|]. destruct (of_at _ _ _ O l y [] EL) as (_ & A2 & _). rewrite EL, last_snoc. exact A2.
Qed.
Lemma cover_rev n n' L w : symn n -> NoDup L -> In w L -> (forall x y, In y (n x) -> In y (n' x)) -> cover n L w -> cover n' (rev L) w.
Proof.
  intros Sy Nd Hw Hi (x & y & X & Y & L1 & L2 & E). exists y, x. rewrite <- !in_rev. rewrite !idx_rev by auto. split; [auto|]. split; [auto|]. split; [lia|]. split; [lia|]. apply Hi. now apply Sy.
Qed.

(** The root T of a component is merged into the vertex z that comes first after the root T'. *)
Definition ren (T z x : Z) : Z := if x =? T then z else x.
Lemma ren_id T z l : ~ In T l -> map (ren T z) l = l.
Proof. intros H. rewrite <- (map_id l) at 2. apply map_ext_in. intros x Hx. unfold ren. destruct (Z.eqb_spec x T); congruence. Qed.
Lemma last_map (f : Z -> Z) l : l <> [] -> last (map f l) NIL = f (last l NIL).
Proof. destruct (list_snoc l) as [->|(k & x & ->)]; [congruence|]. intros _. rewrite map_app. cbn [map]. now rewrite !last_snoc. Qed.
Lemma fan_merge n n' T L T' z l : NoDup (T :: T' :: L ++ z :: l) -> ~ In NIL (T :: T' :: L ++ z :: l) -> L <> [] -> symn n -> ofan n T L -> cfan n T' (z :: l) ->
  (forall x, In x L -> n' x = map (ren T z) (n x)) -> (forall x, In x (T' :: l) -> n' x = n x) -> n' z = n z ++ n T ->
  ofan n' T' (L ++ z :: l) /\ sub (n' T') (tl (L ++ z :: l)) /\ sub (n' (hd NIL L)) (tl (L ++ z :: l)).
Proof.
  intros Nd NN NL Sy O [O' H1 H2] E1 E2 E3. cbn [hd] in H1, H2.
  apply NoDup_cons_iff in Nd. destruct Nd as [NT Nd]. apply NoDup_cons_iff in Nd. destruct Nd as [NT' Nd]. cbn [In] in NT. rewrite in_app_iff in NT, NT'. cbn [In] in NT, NT'. cbn [In] in NN. rewrite in_app_iff in NN. cbn [In] in NN.
  apply NoDup_mid in Nd. destruct Nd as [Nd Nz]. rewrite in_app_iff in Nz.
  assert (Nz0 : n z <> []) by (intros Q; rewrite Q in H2; cbn [last] in H2; subst T'; tauto).
  assert (LL : last L NIL <> NIL) by (intros Q; pose proof (last_in L NIL NL) as I; rewrite Q in I; tauto).
  assert (NT0 : n T <> []) by (intros Q; pose proof (of_last _ _ _ O) as I; rewrite Q in I; cbn [last] in I; congruence).
  assert (MX : forall L1 L2, L = L1 ++ L2 -> map (ren T z) L1 = L1 /\ map (ren T z) L2 = L2).
  { intros L1 L2 EL. rewrite EL, in_app_iff in NT. split; apply ren_id; tauto. }
  assert (AtL : forall L1 x L2, L = L1 ++ x :: L2 -> sub (n' x) (L2 ++ z :: L1) /\ hd NIL (n' x) = hd z L2 /\ (L1 <> [] -> last (n' x) NIL = last L1 NIL)).
  { intros L1 x L2 EL. assert (Ix : In x L) by (rewrite EL; apply in_app_iff; right; now left). rewrite E1 by auto. destruct (of_at _ _ _ O L1 x L2 EL) as (A1 & A2 & A3). destruct (MX L1 (x :: L2) EL) as [M1 M2].
    cbn [map] in M2. injection M2 as M0 M2. assert (Nx : n x <> []).
    { intros Q. rewrite Q in A2. cbn [hd] in A2. destruct L2 as [|y L2]; cbn [hd] in A2; [apply NN; left; congruence|]. apply NN. right; right; left. rewrite EL, A2. apply in_app_iff. right. right. now left. }
    split; [|split].
    - apply (sub_map (ren T z)) in A1. rewrite map_app in A1. cbn [map] in A1. rewrite M1, M2 in A1. unfold ren in A1 at 2. now rewrite Z.eqb_refl in A1.
    - destruct (n x) as [|y m]; [congruence|]. cbn [map hd] in *. rewrite A2. destruct L2 as [|y' L2]; cbn [hd]; [unfold ren; now rewrite Z.eqb_refl|]. cbn [map] in M2. now injection M2.
    - intros N1. rewrite last_map by auto. rewrite A3 by auto. destruct (list_snoc L1) as [->|(k & y & ->)]; [congruence|]. rewrite last_snoc. rewrite map_app in M1. cbn [map] in M1. apply app_inj_tail in M1. tauto. }
  split; [constructor|split].
  - intros M1 x M2 EM. apply app_eq_app in EM. destruct EM as (k & [[-> EM]|[-> EM]]).
    + destruct k as [|y k]; cbn [app] in EM; [injection EM as -> ->|injection EM as <- ->].
      * rewrite app_nil_r in *. rename l into M2. destruct (of_at _ _ _ O' [] z M2 eq_refl) as (B1 & B2 & _). rewrite E3. split; [|split].
        -- change (M2 ++ T' :: M1) with (M2 ++ [T'] ++ M1). rewrite app_assoc. apply sub_app; [exact B1|apply (of_T _ _ _ O)].
        -- rewrite hd_app by auto. exact B2.
        -- intros _. rewrite last_app_ne by auto. apply (of_last _ _ _ O).
      * destruct (AtL M1 x k eq_refl) as (B1 & B2 & B3). split; [|split; [|auto]].
        -- rewrite <- app_assoc. cbn [app]. eapply sub_trans; [exact B1|]. change (k ++ z :: M1) with (k ++ [z] ++ M1). change (k ++ z :: l ++ T' :: M1) with (k ++ [z] ++ (l ++ [T'] ++ M1)). rewrite !app_assoc. rewrite <- (app_assoc (k ++ [z]) l). rewrite <- (app_assoc (k ++ [z])). apply sub_widen.
        -- rewrite B2. destruct k; reflexivity.
    + destruct k as [|y k]; cbn [app] in EM; injection EM as -> ->.
      * rewrite !app_nil_r in *. destruct (of_at _ _ _ O' [] x M2 eq_refl) as (B1 & B2 & _). rewrite E3. split; [|split].
        -- change (M2 ++ T' :: L) with (M2 ++ [T'] ++ L). rewrite app_assoc. apply sub_app; [exact B1|apply (of_T _ _ _ O)].
        -- rewrite hd_app by auto. exact B2.
        -- intros _. rewrite last_app_ne by auto. apply (of_last _ _ _ O).
      * destruct (of_at _ _ _ O' (y :: k) x M2 eq_refl) as (B1 & B2 & B3). rewrite E2 by (right; apply in_app_iff; right; now left). split; [|split].
        -- eapply sub_trans; [exact B1|]. change (M2 ++ T' :: y :: k) with (M2 ++ [T'] ++ y :: k). change (M2 ++ T' :: L ++ y :: k) with (M2 ++ [T'] ++ L ++ y :: k). rewrite !app_assoc. rewrite <- (app_assoc (M2 ++ [T'])). apply sub_widen.
        -- exact B2.
        -- intros _. rewrite B3 by discriminate. now rewrite last_app_ne by discriminate.
  - rewrite E2 by (now left). eapply sub_trans; [apply (of_T _ _ _ O')|]. apply sub_drop.
  - rewrite E2 by (now left). rewrite (of_last _ _ _ O'). now rewrite last_app_ne by discriminate.
  - (* no crossing *)
    pose proof (nocross_rot n T L Sy ltac:(constructor; [tauto|now apply NoDup_app_l in Nd]) (of_nc _ _ _ O)) as NcA. pose proof (of_nc _ _ _ O') as NcB.
    set (C := T' :: L ++ z :: l).
    assert (K : forall x, In x C -> (x = T' /\ idx C x = 0 /\ idx (T' :: z :: l) x = 0 \/ In x L /\ idx C x = 1 + idx L x /\ 0 <= idx L x < len L /\ idx (L ++ [T]) x = idx L x /\ x <> z /\ x <> T \/
        x = z /\ idx C x = 1 + len L /\ idx (L ++ [T]) T = len L /\ idx (T' :: z :: l) x = 1 \/ In x l /\ idx C x = 2 + len L + idx l x /\ 0 <= idx l x /\ idx (T' :: z :: l) x = 2 + idx l x)).
    { intros x Hx. unfold C in *. destruct Hx as [<-|Hx]; [left; rewrite !idx_hd; auto|right]. apply in_app_iff in Hx. cbn [In] in Hx. destruct Hx as [Hx|[<-|Hx]]; [left|right; left|right; right].
      - assert (x <> T') by (intros ->; tauto). assert (x <> z) by (intros ->; tauto). assert (x <> T) by (intros ->; tauto). rewrite idx_tl, !idx_app_l by auto. pose proof (idx_nn L x). pose proof (proj1 (idx_lt _ _) Hx). auto 10.
      - assert (z <> T') by (intros ->; tauto). rewrite !idx_tl by auto. rewrite !idx_mid by tauto. rewrite idx_hd. auto.
      - assert (x <> T') by (intros ->; tauto). assert (x <> z) by (intros ->; tauto). assert (~ In x L) by (intros Q; apply (NoDup_app_disj _ _ x Nd Q Hx)). rewrite !idx_tl, idx_app_r, !idx_tl by auto. pose proof (idx_nn l x). split; [auto|]. lia. }
    set (pre := fun x => if x =? z then T else x).
    assert (Ed : forall u w, In u C -> In w (n' u) -> (In (pre u) (L ++ [T]) /\ In (pre w) (L ++ [T]) /\ In u (L ++ [z]) /\ In w (L ++ [z]) /\ In (pre w) (n (pre u))) \/ (In u (T' :: z :: l) /\ In w (T' :: z :: l) /\ In w (n u))).
    { assert (Li : forall x, In x L -> x <> z /\ x <> T /\ x <> T' /\ ~ In x l). { intros x Hx. split; [intros ->; tauto|]. split; [intros ->; tauto|]. split; [intros ->; tauto|]. intros Q. apply (NoDup_app_disj _ _ x Nd Hx Q). }
      assert (Pz : pre z = T) by (unfold pre; now rewrite Z.eqb_refl). assert (PL : forall x, In x L -> pre x = x) by (intros x Hx; unfold pre; destruct (Li x Hx) as [Q _]; destruct (Z.eqb_spec x z); congruence).
      intros u w Hu Hw. unfold C in Hu. destruct Hu as [<-|Hu].
      - right. rewrite E2 in Hw by (now left). split; [now left|]. split; [|auto]. right. apply (sub_in _ _ _ (of_T _ _ _ O') Hw).
      - apply in_app_iff in Hu. destruct Hu as [Hu|[<-|Hu]].
        + left. rewrite E1 in Hw by auto. apply in_map_iff in Hw. destruct Hw as (w0 & Q & Hw). destruct (in_split _ _ Hu) as (L1 & L2 & EL). pose proof (sub_in _ _ _ (proj1 (of_at _ _ _ O L1 u L2 EL)) Hw) as Iw.
          assert (Iw' : In w0 (L ++ [T])) by (rewrite EL, !in_app_iff in *; cbn [In] in *; tauto). rewrite (PL u Hu). unfold ren in Q. destruct (Z.eqb_spec w0 T) as [Ew|Nw].
          * subst w w0. rewrite Pz. rewrite !in_app_iff. cbn [In]. auto 10.
          * subst w0. apply in_app_iff in Iw'. destruct Iw' as [Iw'|[|[]]]; [|congruence]. rewrite (PL w Iw'). rewrite !in_app_iff. auto 10.
        + rewrite E3 in Hw. apply in_app_iff in Hw. destruct Hw as [Hw|Hw].
          * right. split; [right; now left|]. split; [|auto]. pose proof (sub_in _ _ _ (proj1 (of_at _ _ _ O' [] z l eq_refl)) Hw) as Iw. apply in_app_iff in Iw. cbn [In] in *. tauto.
          * left. pose proof (sub_in _ _ _ (of_T _ _ _ O) Hw) as Iw. rewrite Pz, (PL w Iw). rewrite !in_app_iff. cbn [In]. auto 10.
        + right. rewrite E2 in Hw by (now right). destruct (in_split _ _ Hu) as (L1 & L2 & EL). assert (EL' : z :: l = (z :: L1) ++ u :: L2) by (cbn [app]; congruence). pose proof (sub_in _ _ _ (proj1 (of_at _ _ _ O' _ u L2 EL')) Hw) as Iw.
          split; [right; now right|]. split; [|auto]. rewrite EL'. cbn [In app]. rewrite !in_app_iff in *. cbn [In] in *. tauto. }
    intros a b c d Id Ia Ib Ic Q1 Q2 Q3 Eac Ebd. fold C in Id, Ia, Ib, Ic, Q1, Q2, Q3.
    assert (InA : forall x, In x C -> In x (L ++ [z]) <-> 1 <= idx C x <= 1 + len L).
    { intros x Hx. rewrite in_app_iff. cbn [In]. destruct (K x Hx) as [(-> & J & _)|[(J1 & J2 & J3 & _)|[(-> & J & _)|(J1 & J2 & J3 & _)]]].
      - split; [intros [?|[?|[]]]; [tauto|subst; tauto]|lia].
      - split; [lia|auto].
      - split; [lia|auto].
      - split; [intros [?|[<-|[]]]; [exfalso; now apply (NoDup_app_disj _ _ x Nd)|tauto]|lia]. }
    assert (InB : forall x, In x C -> In x (T' :: z :: l) <-> idx C x = 0 \/ 1 + len L <= idx C x).
    { intros x Hx. cbn [In]. destruct (K x Hx) as [(-> & J & _)|[(J1 & J2 & J3 & _)|[(-> & J & _)|(J1 & J2 & J3 & _)]]].
      - split; [lia|auto].
      - split; [intros [?|[?|?]]; [subst; tauto|subst; tauto|exfalso; now apply (NoDup_app_disj _ _ x Nd)]|lia].
      - split; [lia|auto].
      - split; [lia|auto]. }
    pose proof (idx_nn C a) as Na.
    assert (PreI : forall x, In x C -> In x (L ++ [z]) -> idx (L ++ [T]) (pre x) = idx C x - 1).
    { intros x Hx Hi. unfold pre. destruct (K x Hx) as [(-> & J & _)|[(J1 & J2 & J3 & J4 & J5 & _)|[(-> & J & J2 & _)|(J1 & J2 & J3 & _)]]].
      - apply InA in Hi; auto. lia.
      - destruct (Z.eqb_spec x z); [congruence|]. lia.
      - rewrite Z.eqb_refl. lia.
      - apply InA in Hi; auto. apply idx_lt in J1. lia. }
    assert (BI : forall x, In x C -> In x (T' :: z :: l) -> idx (T' :: z :: l) x = 0 /\ idx C x = 0 \/ 1 <= idx (T' :: z :: l) x /\ idx C x = idx (T' :: z :: l) x + len L).
    { intros x Hx Hi. destruct (K x Hx) as [(-> & J & J')|[(J1 & J2 & J3 & J4 & J5 & _)|[(-> & J & J2 & J')|(J1 & J2 & J3 & J')]]]; try lia. apply InB in Hi; auto. lia. }
    destruct (Ed a c Ia Eac) as [(A1 & A2 & A3 & A4 & A5)|(A1 & A2 & A3)], (Ed b d Ib Ebd) as [(B1 & B2 & B3 & B4 & B5)|(B1 & B2 & B3)].
    + apply (NcA (pre a) (pre b) (pre c) (pre d)); auto; rewrite !PreI by auto; lia.
    + apply InA in A3, A4; auto. apply InB in B1; auto. lia.
    + apply InA in B3, B4; auto. apply InB in A2; auto. lia.
    + apply (NcB a b c d); auto; [destruct (BI a Ia A1), (BI b Ib B1); lia|destruct (BI c Ic A2), (BI b Ib B1); lia|destruct (BI c Ic A2), (BI d Id B2); lia].
  - rewrite E2 by (now left). eapply sub_trans; [apply (of_T _ _ _ O')|]. destruct L as [|x L]; [congruence|]. cbn [app tl]. apply sub_drop.
  - destruct L as [|x L]; [congruence|]. cbn [hd app tl]. destruct (AtL [] x L eq_refl) as (B1 & _). eapply sub_trans; [exact B1|]. apply sub_app; [apply sub_refl|]. repeat constructor.
Qed.
(** The edge from the root T to the first vertex W is added. *)
Lemma fan_close n n' T W L : NoDup (T :: W :: L) -> ~ In NIL (T :: W :: L) -> L <> [] -> ofan n T (W :: L) -> sub (n T) L -> sub (n W) L ->
  n' T = W :: n T -> n' W = n W ++ [T] -> (forall x, In x L -> n' x = n x) -> cfan n' T (W :: L).
Proof.
  intros Nd NN NL O S1 S2 E1 E2 E3. assert (NT0 : n T <> []).
  { intros Q. pose proof (of_last _ _ _ O) as I. rewrite Q in I. change (last [] NIL) with NIL in I. apply NN. right. rewrite I. apply (last_in (W :: L) NIL). discriminate. }
  assert (NW0 : n W <> []).
  { intros Q. destruct (of_at _ _ _ O [] W L eq_refl) as (_ & I & _). rewrite Q in I. cbn [hd] in I. destruct L as [|y L]; [congruence|]. cbn [hd] in I. apply NN. rewrite I. right; right; now left. }
  constructor; [constructor|..].
  - intros L1 x L2 EL. destruct (of_at _ _ _ O L1 x L2 EL) as (A1 & A2 & A3). destruct L1 as [|y L1]; cbn [app] in EL; injection EL as -> ->.
    + rewrite E2. split; [apply sub_app; [auto|apply sub_refl]|]. split; [rewrite hd_app; auto|congruence].
    + rewrite E3 by (apply in_app_iff; right; now left). auto.
  - rewrite E1. constructor. exact S1.
  - rewrite E1. destruct (n T) eqn:Q; [congruence|]. rewrite <- (of_last _ _ _ O), Q. reflexivity.
  - intros a b c d Id Ia Ib Ic Q1 Q2 Q3 Eac Ebd. assert (J : forall u w, In u (T :: W :: L) -> In w (n' u) -> In w (n u) \/ u = T /\ w = W \/ u = W /\ w = T).
    { intros u w [<-|[<-|Hu]] Hw; [rewrite E1 in Hw; destruct Hw; auto|rewrite E2 in Hw; apply in_app_iff in Hw; destruct Hw as [|[|[]]]; auto|rewrite E3 in Hw by auto; auto]. }
    assert (I0 : idx (T :: W :: L) T = 0) by apply idx_hd. assert (I1 : idx (T :: W :: L) W = 1).
    { rewrite idx_tl; [now rewrite idx_hd|]. intros ->. apply NoDup_cons_iff in Nd. apply (proj1 Nd). now left. }
    pose proof (idx_nn (T :: W :: L) a).
    destruct (J a c Ia Eac) as [Ja|[[-> ->]|[-> ->]]]; [|lia|lia]. destruct (J b d Ib Ebd) as [Jb|[[-> ->]|[-> ->]]]; [|lia|lia]. apply (of_nc _ _ _ O a b c d); auto.
  - rewrite E1. reflexivity.
  - cbn [hd]. rewrite E2. apply last_snoc.
Qed.
