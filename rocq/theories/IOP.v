(** * IOP: scanning numbers. *)
From Coq Require Import ZifyBool.
From Verif Require Import Base BaseP GraphRec GraphM StrBufM DrawM IOM IOSpec.

Definition dval (a : Z) (ds : list Z) : Z := fold_left (fun a ch => 10 * a + (ch - 48)) ds a.
Definition all_digits (ds : list Z) : Prop := forall x, In x ds -> c_isdigit x = true.
Definition no_digit (s : list Z) : Prop := match s with ch :: _ => c_isdigit ch = false | [] => True end.

Lemma digits_val : forall f n acc, (0 < f)%nat -> 0 <= n < 10 ^ Z.of_nat f ->
  exists ds, digits f n acc = ds ++ acc /\ ds <> [] /\ all_digits ds /\
    forall a, dval a ds = a * 10 ^ Z.of_nat (length ds) + n.
Proof.
  induction f as [|f IH]; intros n acc Hf Hn; [lia|]. cbn [digits].
  pose proof (Z.div_mod n 10 ltac:(lia)) as DM. pose proof (Z.mod_pos_bound n 10 ltac:(lia)) as MB.
  assert (D0 : 0 <= n / 10) by (apply Z.div_pos; lia).
  destruct (n / 10 =? 0) eqn:E.
  - exists [48 + n mod 10]. split; [reflexivity|]. split; [discriminate|]. split.
    + intros x [<-|[]]. unfold c_isdigit. lia.
    + intros a. cbn. lia.
  - assert (Hd : n / 10 < 10 ^ Z.of_nat f).
    { apply Z.div_lt_upper_bound; [lia|]. rewrite Nat2Z.inj_succ, Z.pow_succ_r in Hn by lia. lia. }
    assert (Hf' : (0 < f)%nat). { destruct f; [cbn in Hd; lia|lia]. }
    destruct (IH (n / 10) ((48 + n mod 10) :: acc) Hf' (conj D0 Hd)) as (ds & E1 & E2 & E3 & E4).
    exists (ds ++ [48 + n mod 10]). split; [rewrite E1, <- app_assoc; reflexivity|]. split; [destruct ds; discriminate|]. split.
    + intros x Hx. apply in_app_iff in Hx. destruct Hx as [Hx|[<-|[]]]; [auto|]. unfold c_isdigit. lia.
    + intros a. unfold dval. rewrite fold_left_app. cbn [fold_left]. fold (dval a ds). rewrite E4, app_length. cbn [length].
      rewrite Nat.add_1_r, Nat2Z.inj_succ, Z.pow_succ_r by lia. lia.
Qed.

Lemma dec_val n : 0 <= n <= INT_MAX -> exists ds, dec n = ds /\ ds <> [] /\ all_digits ds /\
  dval 0 ds = n.
Proof.
  intros Hn. unfold dec. replace (n <? 0) with false by lia.
  destruct (digits_val 10 n [] ltac:(lia)) as (ds & E1 & E2 & E3 & E4).
  { change (10 ^ Z.of_nat 10) with 10000000000. unfold INT_MAX in Hn. lia. }
  rewrite app_nil_r in E1. exists ds. split; [exact E1|]. split; [exact E2|]. split; [exact E3|]. rewrite E4. lia.
Qed.

Lemma scan_digits_ok ds rest : all_digits ds -> no_digit rest -> forall w a, (length ds <= w)%nat ->
  scan_digits w (ds ++ rest) (Some a) = (Some (dval a ds), rest).
Proof.
  intros HD HR. induction ds as [|d ds IH]; intros w a Hw.
  - cbn [app dval fold_left]. destruct w; destruct rest as [|r rest]; try reflexivity. cbn [scan_digits]. cbn in HR. now rewrite HR.
  - cbn [length] in Hw. destruct w as [|w]; [lia|]. cbn [app scan_digits]. rewrite (HD d) by (left; reflexivity).
    rewrite IH; [reflexivity| |lia]. intros x Hx. apply HD. right. exact Hx.
Qed.
Lemma scan_digits_none ds rest : ds <> [] -> all_digits ds -> no_digit rest -> forall w, (length ds <= w)%nat ->
  scan_digits w (ds ++ rest) None = (Some (dval 0 ds), rest).
Proof.
  intros Hne HD HR w Hw. destruct ds as [|d ds]; [congruence|]. cbn [length] in Hw. destruct w as [|w]; [lia|].
  cbn [app scan_digits]. rewrite (HD d) by (left; reflexivity).
  rewrite (scan_digits_ok ds rest); [reflexivity| |exact HR|lia]. intros x Hx. apply HD. right. exact Hx.
Qed.

Lemma digit_not_space x : c_isdigit x = true -> c_isspace x = false /\ x <> 45 /\ x <> 43.
Proof. unfold c_isdigit, c_isspace. lia. Qed.
Lemma skip_ws_digits ds rest : ds <> [] -> all_digits ds -> skip_ws (ds ++ rest) = ds ++ rest.
Proof.
  intros Hne HD. destruct ds as [|d ds]; [congruence|]. cbn [app skip_ws].
  destruct (digit_not_space d) as (-> & _); [apply HD; left; reflexivity|reflexivity].
Qed.
Lemma skip_ws_space s : skip_ws (32 :: s) = skip_ws s.
Proof. reflexivity. Qed.
Lemma skip_ws_idem s : skip_ws (skip_ws s) = skip_ws s.
Proof.
  induction s as [|ch s IH]; [reflexivity|]. cbn [skip_ws]. destruct (c_isspace ch) eqn:E; [exact IH|].
  cbn [skip_ws]. now rewrite E.
Qed.
Lemma skip_ws_no_digit s : no_digit (skip_ws s) -> no_digit s.
Proof.
  destruct s as [|ch s]; [auto|]. cbn [skip_ws no_digit]. destruct (c_isspace ch) eqn:E; [|auto].
  intros _. unfold c_isspace, c_isdigit in *. lia.
Qed.
Lemma sign_none {A} (s : list Z) (w : nat) (d : Z) (f : nat -> list Z -> A) (g : nat -> list Z -> A) (h : A) :
  d <> 45 -> d <> 43 ->
  match w, d :: s with S w', 45 :: s' => f w' s' | S w', 43 :: s' => g w' s' | _, _ => h end = h.
Proof.
  intros H1 H2. destruct w; [reflexivity|]. destruct d as [|p|p]; try reflexivity.
  do 6 (destruct p as [p|p|]; try reflexivity; try congruence).
Qed.

Lemma scan_d_nat w n rest : 0 <= n <= INT_MAX -> no_digit rest -> (length (dec n) <= w)%nat ->
  scan_d w (dec n ++ rest) = Ret (Some n, rest).
Proof.
  intros Hn HR Hw. destruct (dec_val n Hn) as (ds & E1 & E2 & E3 & E4). rewrite E1 in *. unfold scan_d.
  rewrite skip_ws_digits by auto.
  assert (SN : match w, ds ++ rest with
                      | S w', 45 :: s' => (true, w', s')
                      | S w', 43 :: s' => (false, w', s')
                      | _, _ => (false, w, ds ++ rest)
                      end = (false, w, ds ++ rest)).
  { destruct ds as [|d ds]; [congruence|]. cbn [app]. destruct (digit_not_space d) as (_ & D1 & D2); [apply E3; left; reflexivity|].
    exact (sign_none (ds ++ rest) w d (fun w' s' => (true, w', s')) (fun w' s' => (false, w', s')) (false, w, d :: ds ++ rest) D1 D2). }
  rewrite SN. rewrite scan_digits_none by auto. rewrite E4. rewrite guard_true; [reflexivity|].
  unfold int_ok. unfold INT_MAX in *. lia.
Qed.
Lemma scan_int_nat n rest : 0 <= n <= INT_MAX -> no_digit rest -> scan_int (dec n ++ rest) = Ret (Some n, rest).
Proof. intros. apply scan_d_nat; auto. rewrite app_length. lia. Qed.
Lemma scan_d_space w s : scan_d w (32 :: s) = scan_d w s.
Proof. reflexivity. Qed.
Lemma skip_digits_ok ds rest : all_digits ds -> no_digit rest -> skip_digits (ds ++ rest) = rest.
Proof.
  intros HD HR. induction ds as [|d ds IH].
  - destruct rest as [|r rest]; [reflexivity|]. cbn [app skip_digits]. cbn in HR. now rewrite HR.
  - cbn [app skip_digits]. rewrite HD by (left; reflexivity). apply IH. intros x Hx. apply HD. right. exact Hx.
Qed.
Lemma skip_integer_nat n rest : 0 <= n <= INT_MAX -> no_digit rest -> skip_integer (dec n ++ rest) = rest.
Proof.
  intros Hn HR. destruct (dec_val n Hn) as (ds & E1 & E2 & E3 & _). rewrite E1. unfold skip_integer.
  rewrite <- (skip_digits_ok ds rest E3 HR) at 2. destruct ds as [|d ds]; [congruence|].
  destruct (digit_not_space d) as (_ & D1 & D2); [apply E3; left; reflexivity|]. cbn [app].
  rewrite (skip_digits_ok (d :: ds) rest E3 HR : skip_digits (d :: ds ++ rest) = rest).
  assert (SN : match d :: ds ++ rest with 45 :: s' => s' | _ => d :: ds ++ rest end = d :: ds ++ rest).
  { destruct d as [|p|p]; try reflexivity. do 6 (destruct p as [p|p|]; try reflexivity; try congruence). }
  rewrite SN. exact (skip_digits_ok (d :: ds) rest E3 HR).
Qed.

(** The two kinds of source. *)
Definition mk (k : bool) (s : list Z) : src := if k then SFile s else SStr s.

Lemma read_nat k pre trail post cur n rest : 0 <= n <= INT_MAX -> no_digit rest ->
  read_int false pre trail post cur (mk k (dec n ++ rest)) =
  Ret (Some n, mk k (if (if k then trail else post) then skip_ws rest else rest)).
Proof.
  intros Hn HR. destruct k; cbn [mk read_int].
  - rewrite scan_int_nat by auto. reflexivity.
  - assert (E : (if pre then skip_ws (dec n ++ rest) else dec n ++ rest) = dec n ++ rest).
    { destruct pre; [|reflexivity]. destruct (dec_val n Hn) as (ds & E1 & E2 & E3 & _). rewrite E1. apply skip_ws_digits; auto. }
    rewrite E. rewrite scan_int_nat by auto. cbn [bind]. rewrite skip_integer_nat by auto. reflexivity.
Qed.
Lemma read_sp_nat k trail post cur n rest : 0 <= n <= INT_MAX -> no_digit rest ->
  read_int false true trail post cur (mk k (32 :: dec n ++ rest)) =
  Ret (Some n, mk k (if (if k then trail else post) then skip_ws rest else rest)).
Proof.
  intros Hn HR. destruct k; cbn [mk read_int].
  - unfold scan_int. rewrite scan_d_space, scan_d_nat; auto. cbn [length]. rewrite app_length. lia.
  - rewrite skip_ws_space. destruct (dec_val n Hn) as (ds & E1 & E2 & E3 & _). rewrite E1. rewrite skip_ws_digits by auto.
    rewrite <- E1. rewrite scan_int_nat by auto. cbn [bind]. rewrite skip_integer_nat by auto. reflexivity.
Qed.
(** the end mark of a zero-based list *)
Lemma scan_d_minus w rest : (2 <= w)%nat -> no_digit rest -> scan_d w (45 :: 49 :: rest) = Ret (Some (-1), rest).
Proof.
  intros Hw HR. destruct w as [|[|w]]; [lia|lia|]. unfold scan_d.
  change (skip_ws (45 :: 49 :: rest)) with (45 :: 49 :: rest). cbv iota beta.
  change (scan_digits (S w) (49 :: rest) None) with (scan_digits w ([] ++ rest) (Some 1)).
  rewrite scan_digits_ok; [reflexivity| |exact HR|cbn; lia]. intros x [].
Qed.
Lemma read_minus_one k trail post cur rest sp : no_digit rest -> sp = [] \/ sp = [32] ->
  read_int false true trail post cur (mk k (sp ++ dec (-1) ++ rest)) =
  Ret (Some (-1), mk k (if (if k then trail else post) then skip_ws rest else rest)).
Proof.
  intros HR Hsp. change (dec (-1)) with [45; 49].
  assert (SI : skip_integer (45 :: 49 :: rest) = rest).
  { change (skip_integer (45 :: 49 :: rest)) with (skip_digits ([49] ++ rest)). apply skip_digits_ok; auto.
    intros x [<-|[]]. reflexivity. }
  destruct Hsp as [-> | ->]; destruct k; cbn [mk read_int app]; unfold scan_int; cbn [length].
  - rewrite scan_d_minus by (auto; lia). reflexivity.
  - change (skip_ws (45 :: 49 :: rest)) with (45 :: 49 :: rest). cbn [length].
    rewrite scan_d_minus by (auto; lia). cbn [bind]. rewrite SI. reflexivity.
  - rewrite scan_d_space, scan_d_minus by (auto; lia). reflexivity.
  - rewrite skip_ws_space. change (skip_ws (45 :: 49 :: rest)) with (45 :: 49 :: rest). cbn [length].
    rewrite scan_d_minus by (auto; lia). cbn [bind]. rewrite SI. reflexivity.
Qed.
