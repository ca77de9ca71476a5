(** * StackP: proofs for C01. *)
From Verif Require Import Base BaseP StackM StackSpec.

(** [rep f b]: the cells 0.. of the array [f] hold the bottom-first list [b]. *)
Definition rep (f : Z -> Z) (b : list Z) : Prop :=
  b = map (fun i => f (Z.of_nat i)) (seq 0 (length b)).

Lemma rep_nth f b i : rep f b -> (i < length b)%nat -> nth i b 0 = f (Z.of_nat i).
Proof.
  intros H Hi. rewrite H.
  rewrite (nth_indep _ 0 (f (Z.of_nat 0))) by (rewrite map_length, seq_length; lia).
  rewrite (map_nth (fun i => f (Z.of_nat i))). rewrite seq_nth by lia. reflexivity.
Qed.

Lemma rep_of_nth f b : (forall i, (i < length b)%nat -> nth i b 0 = f (Z.of_nat i)) -> rep f b.
Proof.
  intros H. unfold rep. apply (nth_ext _ _ 0 (f (Z.of_nat 0))).
  - now rewrite map_length, seq_length.
  - intros n Hn. rewrite H by lia.
    rewrite (map_nth (fun i => f (Z.of_nat i))). rewrite seq_nth by lia. reflexivity.
Qed.

Lemma rep_push f b a : rep f b -> rep (upd f (Z.of_nat (length b)) a) (b ++ [a]).
Proof.
  intros H. apply rep_of_nth. intros i Hi. rewrite app_length in Hi; simpl in Hi.
  destruct (Nat.eq_dec i (length b)) as [->|Hne].
  - rewrite app_nth2, Nat.sub_diag by lia. simpl. now rewrite upd_same.
  - rewrite app_nth1 by lia. rewrite upd_other by lia. apply rep_nth; auto; lia.
Qed.

Lemma rep_snoc f b a : rep f (b ++ [a]) -> rep f b /\ a = f (Z.of_nat (length b)).
Proof.
  intros H. split.
  - apply rep_of_nth. intros i Hi.
    rewrite <- (rep_nth f (b ++ [a]) i H) by (rewrite app_length; simpl; lia).
    now rewrite app_nth1.
  - rewrite <- (rep_nth f (b ++ [a]) (length b) H) by (rewrite app_length; simpl; lia).
    rewrite app_nth2, Nat.sub_diag by lia. reflexivity.
Qed.

Lemma rep_firstn f b n : rep f b -> rep f (firstn n b).
Proof.
  intros H. apply rep_of_nth. intros i Hi. rewrite firstn_length in Hi.
  rewrite <- (rep_nth f b i H) by lia.
  rewrite <- (firstn_skipn n b) at 2. rewrite app_nth1; [reflexivity|]. rewrite firstn_length; lia.
Qed.

Lemma rep_ext f g b : (forall i, 0 <= i < Z.of_nat (length b) -> f i = g i) -> rep f b -> rep g b.
Proof.
  intros He H. apply rep_of_nth. intros i Hi. rewrite <- He by lia. now apply rep_nth.
Qed.

Lemma rep_set f b k v : rep f b -> (k < length b)%nat ->
  rep (upd f (Z.of_nat k) v) (firstn k b ++ [v] ++ skipn (S k) b).
Proof.
  intros H Hk. apply rep_of_nth. intros i Hi.
  rewrite !app_length, firstn_length, skipn_length in Hi; simpl in Hi.
  destruct (lt_eq_lt_dec i k) as [[Hlt| ->]|Hgt].
  - rewrite app_nth1 by (rewrite firstn_length; lia). rewrite upd_other by lia.
    rewrite <- (rep_nth f b i H) by lia.
    rewrite <- (firstn_skipn k b) at 2. rewrite app_nth1; [reflexivity|]. rewrite firstn_length; lia.
  - rewrite app_nth2 by (rewrite firstn_length; lia).
    rewrite firstn_length, Nat.min_l, Nat.sub_diag by lia. simpl. now rewrite upd_same.
  - rewrite app_nth2 by (rewrite firstn_length; lia).
    rewrite firstn_length, Nat.min_l by lia. rewrite upd_other by lia.
    rewrite <- (rep_nth f b i H) by lia.
    rewrite <- (firstn_skipn (S k) b) at 2.
    rewrite (app_nth2 (firstn (S k) b)) by (rewrite firstn_length; lia).
    rewrite firstn_length, Nat.min_l by lia.
    replace (i - k)%nat with (S (i - S k))%nat by lia. reflexivity.
Qed.

Definition srel (s : stk) (l : lstk) : Prop :=
  ssize s = lsize l /\ scap s = lcap l /\ lsize l <= lcap l /\ rep (sS s) (rev (items l)).

Lemma srel_content s l : srel s l -> content s = items l.
Proof.
  intros (Hs & _ & _ & H). unfold content. rewrite Hs. unfold lsize. rewrite Nat2Z.id.
  rewrite <- (rev_involutive (items l)) at 2. f_equal.
  unfold rep in H. rewrite rev_length in H. symmetry; exact H.
Qed.

Lemma srel_new junk cap : 0 <= cap -> srel (sp_New junk cap) (mkL [] cap).
Proof. intros H. repeat split; simpl; auto. Qed.

Ltac uns := unfold s_write, s_read, s_inb, s_setsize, lsize in *; simpl in *.
Ltac gtrue := match goal with |- context [guard ?b _] =>
  replace b with true by (symmetry; rewrite ?andb_true_iff, ?Z.leb_le, ?Z.ltb_lt; lia) end; simpl.

Lemma rep_len f a l : rep f (rev l ++ [a]) -> a = f (Z.of_nat (length l)).
Proof. intros H. apply rep_snoc in H. rewrite rev_length in H. tauto. Qed.

Lemma copy_srel junk s o ls lo : srel s ls -> srel o lo ->
  exists s', sp_Copy junk s o = Ret (C_OK, s') /\
             srel s' (mkL (items lo) (if lcap ls <? lsize lo then lcap lo else lcap ls)).
Proof.
  intros (Hs & Hc & Hb & Hr) (Ho1 & Ho2 & Ho3 & Ho4).
  unfold sp_Copy, sp_CopyContent. rewrite Hc, Ho1.
  destruct (Z.ltb_spec (lcap ls) (lsize lo)) as [Hlt|Hge]; simpl.
  - unfold sp_Duplicate. rewrite Ho1. destruct (Z.ltb_spec 0 (lsize lo)) as [H0|H0].
    + uns. gtrue. eexists; split; [reflexivity|]. repeat split; simpl; auto.
      eapply rep_ext; [|exact Ho4]. simpl. intros i Hi. rewrite rev_length in Hi.
      destruct (Z.leb_spec 0 i); [|lia]. destruct (Z.ltb_spec i (Z.of_nat (length (items lo)))); [|lia].
      reflexivity.
    + unfold lsize in *. lia.
  - destruct (Z.ltb_spec 0 (lsize lo)) as [H0|H0].
    + uns. gtrue. eexists; split; [reflexivity|]. repeat split; simpl; auto.
      eapply rep_ext; [|exact Ho4]. simpl. intros i Hi. rewrite rev_length in Hi.
      destruct (Z.leb_spec 0 i); [|lia]. destruct (Z.ltb_spec i (Z.of_nat (length (items lo)))); [|lia].
      reflexivity.
    + eexists; split; [reflexivity|]. unfold lsize in *.
      assert (items lo = []) as E by (destruct (items lo); simpl in *; auto; lia).
      rewrite E in *. repeat split; simpl; auto.
Qed.

Lemma dup_srel junk o lo : srel o lo ->
  exists s', sp_Duplicate junk o = Ret s' /\ srel s' (mkL (items lo) (lcap lo)).
Proof.
  intros (Ho1 & Ho2 & Ho3 & Ho4). unfold sp_Duplicate. rewrite Ho1.
  destruct (Z.ltb_spec 0 (lsize lo)) as [H0|H0].
  - uns. gtrue. eexists; split; [reflexivity|]. repeat split; simpl; auto.
    eapply rep_ext; [|exact Ho4]. simpl. intros i Hi. rewrite rev_length in Hi.
    destruct (Z.leb_spec 0 i); [|lia]. destruct (Z.ltb_spec i (Z.of_nat (length (items lo)))); [|lia].
    reflexivity.
  - eexists; split; [reflexivity|]. unfold lsize in *.
    assert (items lo = []) as E by (destruct (items lo); simpl in *; auto; lia).
    rewrite E in *. repeat split; simpl; auto.
Qed.

Ltac fin := eexists; split; [reflexivity|]; unfold srel, lsize in *; simpl in *; repeat split; auto; try lia.
Ltac brk H := match type of H with context [if ?b then _ else _] => destruct b eqn:? end.

Lemma step_srel junk s o ls lo c :
  srel s ls -> srel o lo -> sop_ok ls c = true ->
  exists s', chk_step junk s o c = Ret (fst (spec_step ls lo c), s') /\
             srel s' (snd (spec_step ls lo c)).
Proof.
  intros Hs0 Ho0 Hok. pose proof Hs0 as (Hs & Hc & Hb & Hr).
  destruct c as [d a|d a b|d|d|d|d|d|d|d pos|d pos v|d|d n|d|d|d]; cbn [chk_step spec_step].
  - (* push *)
    unfold chk_Push, fix3. rewrite Hs, Hc.
    destruct (Z.leb_spec (lcap ls) (lsize ls)), (Z.ltb_spec (lsize ls) (lcap ls)); try lia; simpl.
    + fin.
    + uns. rewrite Hs, Hc. gtrue. fin.
      rewrite <- (rev_length (items ls)). now apply rep_push.
  - unfold chk_Push2, fix3. rewrite Hs, Hc.
    destruct (Z.leb_spec (lcap ls) (lsize ls + 1)), (Z.leb_spec (lsize ls + 2) (lcap ls)); try lia; simpl.
    + fin.
    + uns. rewrite Hs, Hc. do 2 gtrue. fin.
      replace (Z.of_nat (length (items ls)) + 1) with (Z.of_nat (length (rev (items ls) ++ [a])))
        by (rewrite app_length, rev_length; simpl; lia).
      apply rep_push. rewrite <- (rev_length (items ls)). now apply rep_push.
  - (* pop *)
    unfold chk_Pop. rewrite Hs. destruct (items ls) as [|x l] eqn:E; uns; rewrite E in *; simpl in *.
    + eexists; split; [reflexivity|exact Hs0].
    + destruct (Z.leb_spec (Z.of_nat (S (length l))) 0); [lia|].
      gtrue. pose proof (rep_len _ _ _ Hr) as Hx.
      eexists; split; [rewrite Hx; replace (Z.of_nat (S (length l)) - 1) with (Z.of_nat (length l)) by lia; reflexivity|].
      unfold srel, lsize in *; simpl in *; repeat split; auto; try lia. now apply rep_snoc in Hr.
  - unfold chk_Pop_Discard. rewrite Hs. destruct (items ls) as [|x l] eqn:E; uns; rewrite E in *; simpl in *.
    + eexists; split; [reflexivity|exact Hs0].
    + destruct (Z.leb_spec (Z.of_nat (S (length l))) 0); [lia|].
      eexists; split; [reflexivity|].
      unfold srel, lsize in *; simpl in *; repeat split; auto; try lia. now apply rep_snoc in Hr.
  - unfold chk_Pop2. rewrite Hs. destruct (items ls) as [|x [|y l]] eqn:E; uns; rewrite E in *; simpl in *.
    + eexists; split; [reflexivity|exact Hs0].
    + eexists; split; [reflexivity|exact Hs0].
    + destruct (Z.leb_spec (Z.of_nat (S (S (length l)))) 1); [lia|].
      do 2 gtrue. pose proof (rep_snoc _ _ _ Hr) as [Hr2 Hx].
      pose proof (rep_snoc _ _ _ Hr2) as [Hr3 Hy].
      rewrite app_length, rev_length in Hx; simpl in Hx. rewrite rev_length in Hy.
      eexists; split; [rewrite Hx, Hy; replace (Z.of_nat (S (S (length l))) - 1) with (Z.of_nat (length l + 1)) by lia; replace (Z.of_nat (S (S (length l))) - 2) with (Z.of_nat (length l)) by lia; reflexivity|].
      unfold srel, lsize in *; simpl in *; repeat split; auto; try lia.
  - unfold chk_Pop2_Discard1. rewrite Hs. destruct (items ls) as [|x [|y l]] eqn:E; uns; rewrite E in *; simpl in *.
    + eexists; split; [reflexivity|exact Hs0].
    + eexists; split; [reflexivity|exact Hs0].
    + destruct (Z.leb_spec (Z.of_nat (S (S (length l)))) 1); [lia|].
      gtrue. pose proof (rep_snoc _ _ _ Hr) as [Hr2 Hx].
      pose proof (rep_snoc _ _ _ Hr2) as [Hr3 Hy]. rewrite rev_length in Hy.
      eexists; split; [rewrite Hy; replace (Z.of_nat (S (S (length l))) - 2) with (Z.of_nat (length l)) by lia; reflexivity|].
      unfold srel, lsize in *; simpl in *; repeat split; auto; try lia.
  - unfold chk_Pop2_Discard. rewrite Hs. destruct (items ls) as [|x [|y l]] eqn:E; uns; rewrite E in *; simpl in *.
    + eexists; split; [reflexivity|exact Hs0].
    + eexists; split; [reflexivity|exact Hs0].
    + destruct (Z.leb_spec (Z.of_nat (S (S (length l)))) 1); [lia|].
      pose proof (rep_snoc _ _ _ Hr) as [Hr2 Hx].
      pose proof (rep_snoc _ _ _ Hr2) as [Hr3 Hy].
      eexists; split; [reflexivity|].
      unfold srel, lsize in *; simpl in *; repeat split; auto; try lia.
  - (* top *)
    unfold sp_Top. rewrite Hs. destruct (items ls) as [|x l] eqn:E; uns; rewrite E in *; simpl in *.
    + eexists; split; [reflexivity|exact Hs0].
    + gtrue. pose proof (rep_len _ _ _ Hr) as Hx.
      eexists; split; [rewrite Hx; replace (Z.of_nat (S (length l)) - 1) with (Z.of_nat (length l)) by lia; reflexivity|].
      exact Hs0.
  - (* get *)
    unfold chk_Get. rewrite Hs.
    destruct (Z.ltb_spec pos 0), (Z.leb_spec (lsize ls) pos), (Z.leb_spec 0 pos), (Z.ltb_spec pos (lsize ls));
      try lia; simpl; try (eexists; split; [reflexivity|]; exact Hs0).
    uns. gtrue. eexists; split; [|exact Hs0].
    unfold from_bottom. rewrite (rep_nth _ _ _ Hr) by (rewrite rev_length; lia).
    now rewrite Z2Nat.id by lia.
  - (* set *)
    unfold chk_Set, fix3. rewrite Hs.
    destruct (Z.ltb_spec pos 0), (Z.leb_spec (lsize ls) pos), (Z.leb_spec 0 pos), (Z.ltb_spec pos (lsize ls));
      try lia; simpl; try (eexists; split; [reflexivity|]; exact Hs0).
    uns. gtrue. eexists; split; [reflexivity|].
    assert (Hlen : length (set_bottom ls pos v) = length (items ls)).
    { unfold set_bottom. rewrite rev_length, app_length, firstn_length.
      cbn [app length]. rewrite skipn_length, rev_length. lia. }
    repeat split; unfold lsize; simpl; rewrite ?Hlen; auto; try lia.
    unfold set_bottom. rewrite rev_involutive.
    rewrite <- (Z2Nat.id pos) at 1 by lia. apply (rep_set _ _ _ _ Hr). rewrite rev_length; lia.
  - (* clear *) eexists; split; [reflexivity|]. repeat split; unfold lsize in *; simpl; auto; lia.
  - (* setsize *)
    unfold sp_SetCurrentSize. simpl in Hok. rewrite Hc.
    assert (0 <= lsize ls) by (unfold lsize; lia).
    destruct (Z.ltb_spec (lcap ls) n), (Z.leb_spec n (lsize ls)), (Z.leb_spec 0 n); simpl in Hok; try lia; try discriminate.
    + eexists; split; [reflexivity|]. exact Hs0.
    + unfold lsize in *. eexists; split; [reflexivity|]. repeat split; unfold lsize; simpl; rewrite ?skipn_length; auto; try lia.
      replace (rev (skipn (Z.to_nat (Z.of_nat (length (items ls)) - n)) (items ls)))
        with (firstn (Z.to_nat n) (rev (items ls))).
      * now apply rep_firstn.
      * rewrite firstn_rev. do 2 f_equal. lia.
  - (* size *) eexists; split; [rewrite Hs; reflexivity|]. exact Hs0.
  - (* copy *) unfold fix3. destruct (copy_srel junk s o ls lo Hs0 Ho0) as (s' & -> & H). simpl.
    eexists; split; [reflexivity|]. exact H.
  - (* dup *) destruct (dup_srel junk o lo Ho0) as (s' & -> & H). simpl.
    eexists; split; [reflexivity|]. exact H.
Qed.

Lemma run_srel junk h : forall A B LA LB,
  srel A LA -> srel B LB -> hist_ok sop_ok LA LB h = true ->
  exists A' B', run_stk (chk_step junk) A B h = Ret (fst (spec_run LA LB h), (A', B')) /\
    srel A' (fst (snd (spec_run LA LB h))) /\ srel B' (snd (snd (spec_run LA LB h))).
Proof.
  induction h as [|c h IH]; intros A B LA LB HA HB Hok; simpl in *.
  - eexists _, _; split; [reflexivity|]. simpl; auto.
  - destruct (op_side c).
    + apply andb_true_iff in Hok. destruct Hok as [Hc Hh].
      destruct (step_srel junk A B LA LB c HA HB Hc) as (A1 & E & HA1).
      destruct (spec_step LA LB c) as [[r vs] LA1] eqn:Es. simpl in *.
      rewrite E. simpl.
      destruct (IH A1 B LA1 LB HA1 HB Hh) as (A' & B' & Er & H1 & H2).
      rewrite Er. destruct (spec_run LA1 LB h) as [outs [L1 L2]]. simpl in *.
      eexists _, _; split; [reflexivity|]. auto.
    + apply andb_true_iff in Hok. destruct Hok as [Hc Hh].
      destruct (step_srel junk B A LB LA c HB HA Hc) as (B1 & E & HB1).
      destruct (spec_step LB LA c) as [[r vs] LB1] eqn:Es. simpl in *.
      rewrite E. simpl.
      destruct (IH A B1 LA LB1 HA HB1 Hh) as (A' & B' & Er & H1 & H2).
      rewrite Er. destruct (spec_run LA LB1 h) as [outs [L1 L2]]. simpl in *.
      eexists _, _; split; [reflexivity|]. auto.
Qed.

(** In bounds, the macro build does exactly what the checked build does. *)
Lemma mac_step_eq junk s o ls c :
  srel s ls -> sop_in_bounds ls c = true -> mac_step junk s o c = chk_step junk s o c.
Proof.
  intros (Hs & Hc & Hb & Hr) Hin.
  destruct c as [d a|d a b|d|d|d|d|d|d|d pos|d pos v|d|d n|d|d|d]; cbn [mac_step chk_step sop_in_bounds] in *; try reflexivity.
  - unfold mac_Push, chk_Push, fix3. rewrite Hs, Hc.
    destruct (Z.leb_spec (lcap ls) (lsize ls)); [lia|]. simpl.
    destruct (s_write s (lsize ls) a); reflexivity.
  - unfold mac_Push2, mac_Push, chk_Push2, fix3. rewrite Hs, Hc.
    destruct (Z.leb_spec (lcap ls) (lsize ls + 1)); [lia|].
    uns. rewrite Hc. gtrue. gtrue. reflexivity.
  - unfold mac_Pop, chk_Pop. rewrite Hs. destruct (Z.leb_spec (lsize ls) 0); [lia|]. uns.
    gtrue. reflexivity.
  - unfold chk_Pop_Discard, mac_Pop_Discard. rewrite Hs. destruct (Z.leb_spec (lsize ls) 0); [lia|]. reflexivity.
  - unfold mac_Pop2, mac_Pop, chk_Pop2. rewrite Hs. destruct (Z.leb_spec (lsize ls) 1); [lia|]. uns.
    gtrue. gtrue. replace (Z.of_nat (length (items ls)) - 1 - 1) with (Z.of_nat (length (items ls)) - 2) by lia.
    gtrue. reflexivity.
  - unfold mac_Pop2_Discard1, mac_Pop, mac_Pop_Discard, chk_Pop2_Discard1. rewrite Hs. destruct (Z.leb_spec (lsize ls) 1); [lia|]. uns.
    gtrue. replace (Z.of_nat (length (items ls)) - 1 - 1) with (Z.of_nat (length (items ls)) - 2) by lia.
    gtrue. reflexivity.
  - unfold mac_Pop2_Discard, mac_Pop_Discard, chk_Pop2_Discard. rewrite Hs. destruct (Z.leb_spec (lsize ls) 1); [lia|]. uns.
    do 3 f_equal. lia.
  - unfold mac_Get, chk_Get. rewrite Hs.
    destruct (Z.ltb_spec pos 0), (Z.leb_spec (lsize ls) pos); simpl; try reflexivity; lia.
  - unfold mac_Set, chk_Set, fix3. rewrite Hs.
    destruct (Z.ltb_spec pos 0), (Z.leb_spec (lsize ls) pos); simpl; try lia.
    destruct (s_write s pos v); reflexivity.
Qed.

Lemma mac_run_eq junk h : forall A B LA LB,
  srel A LA -> srel B LB -> hist_ok sop_ok LA LB h = true -> hist_ok sop_in_bounds LA LB h = true ->
  run_stk (mac_step junk) A B h = run_stk (chk_step junk) A B h.
Proof.
  induction h as [|c h IH]; intros A B LA LB HA HB Hok Hin; simpl in *; auto.
  destruct (op_side c).
  - apply andb_true_iff in Hok, Hin. destruct Hok as [Hc Hh], Hin as [Hi Hih].
    rewrite (mac_step_eq junk A B LA c HA Hi).
    destruct (step_srel junk A B LA LB c HA HB Hc) as (A1 & E & HA1).
    destruct (spec_step LA LB c) as [[r vs] LA1] eqn:Es. simpl in *.
    rewrite E. simpl. rewrite (IH A1 B LA1 LB); auto.
  - apply andb_true_iff in Hok, Hin. destruct Hok as [Hc Hh], Hin as [Hi Hih].
    rewrite (mac_step_eq junk B A LB c HB Hi).
    destruct (step_srel junk B A LB LA c HB HA Hc) as (B1 & E & HB1).
    destruct (spec_step LB LA c) as [[r vs] LB1] eqn:Es. simpl in *.
    rewrite E. simpl. rewrite (IH A B1 LA LB1); auto.
Qed.
