(** * StrBufP: proofs about string buffers. *)
From Verif Require Import Base BaseP StrBufM StrBufSpec.

Lemma b_inb_true b i : 0 <= i < bsz b -> b_inb b i = true.
Proof. intros H. unfold b_inb. apply andb_true_intro. rewrite Z.leb_le, Z.ltb_lt. lia. Qed.
Lemma b_rd_ok b i : 0 <= i < bsz b -> b_rd b i = Ret (bdat b i).
Proof. intros H. unfold b_rd. now rewrite b_inb_true. Qed.
Lemma b_wr_ok b i v : 0 <= i < bsz b -> b_wr b i v = Ret (mkBlk (bsz b) (upd (bdat b) i v)).
Proof. intros H. unfold b_wr. now rewrite b_inb_true. Qed.
Lemma int_ok_true z : 0 <= z <= INT_MAX -> int_ok z = true.
Proof. intros H. unfold int_ok. apply andb_true_intro. rewrite !Z.leb_le. lia. Qed.
Lemma iadd_ok a b : 0 <= a + b <= INT_MAX -> iadd a b = Ret (a + b).
Proof. intros H. unfold iadd. now rewrite int_ok_true. Qed.
Lemma imul_ok a b : 0 <= a * b <= INT_MAX -> imul a b = Ret (a * b).
Proof. intros H. unfold imul. now rewrite int_ok_true. Qed.

Lemma strcpy_str_ok s : forall d off,
  0 <= off -> off + Z.of_nat (length s) < bsz d ->
  exists d', strcpy_str d off s = Ret d' /\ bsz d' = bsz d /\
    (forall i, (i < length s)%nat -> bdat d' (off + Z.of_nat i) = nth i s 0) /\
    bdat d' (off + Z.of_nat (length s)) = 0 /\
    (forall j, j < off -> bdat d' j = bdat d j).
Proof.
  induction s as [|ch s IH]; intros d off H0 H1; cbn [strcpy_str length] in *.
  - rewrite b_wr_ok by lia. eexists. split; [reflexivity|]. cbn [bsz bdat].
    split; [reflexivity|]. split; [intros i Hi; lia|]. split.
    + rewrite Z.add_0_r. apply upd_same.
    + intros j Hj. apply upd_other. lia.
  - rewrite b_wr_ok by lia. cbn [bind].
    destruct (IH (mkBlk (bsz d) (upd (bdat d) off ch)) (off + 1)) as (d' & E & Es & Hd & Hz & Hf);
      cbn [bsz bdat] in *; [lia|lia|].
    exists d'. split; [exact E|]. split; [exact Es|]. split; [|split].
    + intros [|i] Hi.
      * cbn [nth]. rewrite Hf by lia. replace (off + Z.of_nat 0) with off by lia. apply upd_same.
      * cbn [nth]. rewrite <- Hd by lia. f_equal. lia.
    + rewrite <- Hz. f_equal. lia.
    + intros j Hj. rewrite Hf by lia. apply upd_other. lia.
Qed.

Lemma strcpy_blk_ok b l : holds_string b l -> ~ In 0 l -> forall n k fuel d,
  (n + k = length l)%nat -> (n < fuel)%nat -> Z.of_nat (length l) < bsz d ->
  exists d', strcpy_blk fuel d b (Z.of_nat k) = Ret d' /\ bsz d' = bsz d /\
    (forall i, (k <= i <= length l)%nat -> bdat d' (Z.of_nat i) = bdat b (Z.of_nat i)) /\
    (forall j, j < Z.of_nat k -> bdat d' j = bdat d j).
Proof.
  intros (Hb & Hl & Hz) Hnz. induction n as [|n IH]; intros k fuel d Hk Hf Hd;
    (destruct fuel as [|fuel]; [lia|]); cbn [strcpy_blk].
  - rewrite b_rd_ok by lia. cbn [bind]. rewrite b_wr_ok by lia. cbn [bind].
    assert (Ek : k = length l) by lia. subst k. rewrite Hz. cbn [Z.eqb].
    eexists. split; [reflexivity|]. cbn [bsz bdat]. split; [reflexivity|]. split.
    + intros i Hi. replace i with (length l) by lia. rewrite upd_same. now rewrite Hz.
    + intros j Hj. apply upd_other. lia.
  - rewrite b_rd_ok by lia. cbn [bind]. rewrite b_wr_ok by lia. cbn [bind].
    rewrite Hl by lia. destruct (Z.eqb_spec (nth k l 0) 0) as [E|_].
    { exfalso. apply Hnz. rewrite <- E. apply nth_In. lia. }
    destruct (IH (S k) fuel (mkBlk (bsz d) (upd (bdat d) (Z.of_nat k) (nth k l 0)))) as (d' & E & Es & H1 & H2);
      [lia|lia|cbn [bsz]; lia|].
    exists d'. split; [rewrite <- E; f_equal; lia|]. cbn [bsz bdat] in *. split; [exact Es|]. split.
    + intros i Hi. destruct (Nat.eq_dec i k) as [->|].
      * rewrite H2 by lia. rewrite upd_same. now rewrite Hl by lia.
      * apply H1. lia.
    + intros j Hj. rewrite H2 by lia. apply upd_other. lia.
Qed.

Lemma copy_holds junk b l n :
  holds_string b l -> ~ In 0 l -> Z.of_nat (length l) < n ->
  exists d, strcpy_blk (blk_fuel b) (mkBlk n junk) b 0 = Ret d /\ bsz d = n /\ holds_string d l.
Proof.
  intros H Hnz Hn. pose proof H as (Hb & Hl & Hz).
  destruct (strcpy_blk_ok b l H Hnz (length l) 0 (blk_fuel b) (mkBlk n junk)) as (d & E & Es & H1 & _).
  { lia. } { unfold blk_fuel. lia. } { exact Hn. }
  exists d. split; [exact E|]. split; [exact Es|]. cbn [bsz] in Es. split; [lia|]. split.
  - intros i Hi. rewrite H1 by lia. now apply Hl.
  - rewrite H1 by lia. exact Hz.
Qed.

Lemma append_holds b l str :
  holds_string b l -> Z.of_nat (length l) + Z.of_nat (length str) < bsz b ->
  exists d, strcpy_str b (Z.of_nat (length l)) str = Ret d /\ bsz d = bsz b /\ holds_string d (l ++ str).
Proof.
  intros (Hb & Hl & Hz) Hs.
  destruct (strcpy_str_ok str b (Z.of_nat (length l))) as (d & E & Es & H1 & H2 & H3); [lia|lia|].
  exists d. split; [exact E|]. split; [exact Es|]. unfold holds_string. rewrite app_length.
  split; [lia|]. split.
  - intros i Hi. destruct (Nat.lt_ge_cases i (length l)).
    + rewrite H3 by lia. rewrite app_nth1 by lia. now apply Hl.
    + rewrite app_nth2 by lia. rewrite <- H1 by lia. f_equal. lia.
  - rewrite <- H2. f_equal. lia.
Qed.

Definition HALF : Z := 1073741823.

Lemma concat_ok junk a s l str :
  sb_holds s l -> ~ In 0 str -> Z.of_nat (length l) + Z.of_nat (length str) <= HALF ->
  exists r s', sb_ConcatString junk a s str = Ret (r, s') /\
    sbcap s <= sbcap s' /\ sbread s' = sbread s /\
    ((r = C_OK /\ sb_holds s' (l ++ str)) \/ (r = C_NOTOK /\ a = false /\ s' = s)).
Proof.
  intros (b & Eb & Hb & Hs & Hc & Hbs & Hnz) Hn0 Hlen. unfold sb_ConcatString, HALF in *.
  destruct (Z.eqb_spec (Z.of_nat (length str)) 0) as [E0|E0].
  { exists C_OK, s. split; [reflexivity|]. split; [lia|]. split; [auto|]. left. split; [auto|].
    destruct str; [|simpl in E0; lia]. rewrite app_nil_r. exists b. auto 10. }
  rewrite Eb. rewrite iadd_ok by (unfold INT_MAX; lia). cbn [bind].
  assert (Hn0' : ~ In 0 (l ++ str)) by (rewrite in_app_iff; tauto).
  destruct (Z.ltb_spec (sbcap s) (sbsize s + Z.of_nat (length str))) as [Hg|Hg].
  - rewrite imul_ok by (unfold INT_MAX; lia). cbn [bind].
    set (nl := if 2 * sbcap s <? sbsize s + Z.of_nat (length str) then _ else _).
    assert (Hnl : sbsize s + Z.of_nat (length str) <= nl <= 2 * HALF /\ sbcap s <= nl).
    { unfold nl, HALF. destruct (Z.ltb_spec (2 * sbcap s) (sbsize s + Z.of_nat (length str))); lia. }
    clearbody nl. rewrite iadd_ok by (unfold INT_MAX, HALF in *; lia). cbn [bind].
    destruct a; cbn [bind].
    + destruct (copy_holds junk b l (nl + 1) Hb Hnz) as (d & Ed & Esd & Hd); [lia|].
      rewrite Ed. cbn [bind]. cbn [Z.eqb C_OK Pos.eqb]. rewrite Hs.
      destruct (append_holds d l str Hd) as (d2 & Ed2 & Esd2 & Hd2); [lia|].
      rewrite Ed2. cbn [bind]. eexists _, _. split; [reflexivity|]. cbn [sbcap sbread].
      split; [lia|]. split; [reflexivity|]. left. split; [reflexivity|]. exists d2. cbn [sbuf sbsize sbcap].
      split; [reflexivity|]. split; [exact Hd2|]. rewrite app_length. split; [lia|]. split; [lia|]. split; [lia|auto].
    + cbn [Z.eqb C_OK C_NOTOK]. exists C_NOTOK, s. split; [reflexivity|]. split; [lia|]. split; [auto|]. right; auto.
  - cbn [bind]. cbn [Z.eqb C_OK Pos.eqb]. rewrite Hs.
    destruct (append_holds b l str Hb) as (d2 & Ed2 & Esd2 & Hd2); [lia|].
    rewrite Ed2. cbn [bind]. eexists _, _. split; [reflexivity|]. cbn [sbcap sbread].
    split; [lia|]. split; [reflexivity|]. left. split; [reflexivity|]. exists d2. cbn [sbuf sbsize sbcap].
    split; [reflexivity|]. split; [exact Hd2|]. rewrite app_length. split; [lia|]. split; [lia|]. split; [lia|auto].
Qed.

Lemma clear_ok s l : sb_holds s l ->
  exists s', sb_ClearBuf s = Ret s' /\ sb_holds s' [] /\ sbcap s' = sbcap s /\ sbread s' = 0.
Proof.
  intros (b & Eb & (Hb1 & Hb2 & Hb3) & Hs & Hc & Hbs & Hnz). unfold sb_ClearBuf. rewrite Eb.
  rewrite b_wr_ok by lia. cbn [bind]. eexists. split; [reflexivity|]. cbn [sbcap sbread].
  split; [|auto]. eexists. cbn [sbuf sbsize sbcap]. split; [reflexivity|]. unfold holds_string.
  cbn [bsz bdat length]. split; [|simpl; split; [lia|]; split; [lia|]; split; [lia|auto]].
  split; [lia|]. split; [intros i Hi; lia|]. apply upd_same.
Qed.

Lemma new_ok junk capacity : 0 <= capacity -> capacity < INT_MAX ->
  exists s, sb_New junk true capacity = Ret (Some s) /\ sb_holds s [] /\ sbcap s = capacity /\ sbread s = 0.
Proof.
  intros H0 H1. unfold sb_New. destruct (Z.ltb_spec capacity 0); [lia|].
  rewrite iadd_ok by lia. cbn [bind]. unfold sb_ClearBuf. cbn [sbuf].
  rewrite b_wr_ok by (cbn [bsz]; lia). cbn [bind]. eexists. split; [reflexivity|]. cbn [sbcap sbread].
  split; [|auto]. eexists. cbn [sbuf sbsize sbcap]. split; [reflexivity|]. unfold holds_string.
  cbn [bsz bdat length]. split; [|simpl; split; [lia|]; split; [lia|]; split; [lia|auto]].
  split; [lia|]. split; [intros i Hi; lia|]. apply upd_same.
Qed.

Lemma run_ok junk os : forall s l,
  sb_holds s l -> Forall sbop_valid os -> Z.of_nat (length l) + total_len os <= HALF ->
  exists rs s', sbrun junk s os = Ret (rs, s') /\ Forall2 answer_ok os rs /\
    sb_holds s' (text l os rs) /\ sbcap s <= sbcap s'.
Proof.
  induction os as [|o os IH]; intros s l H Hv Hl; cbn [sbrun total_len] in *.
  - exists [], s. split; [reflexivity|]. split; [constructor|]. split; [exact H|lia].
  - inversion_clear Hv as [|? ? Hv1 Hv2].
    assert (Htl : 0 <= total_len os).
    { clear. induction os as [|o os IH]; cbn [total_len]; lia. }
    assert (Hcat : forall a str, ~ In 0 str -> added o = str ->
      (o = BConcat a str \/ exists ch, o = BChar a ch) ->
      sbstep junk s o = sb_ConcatString junk a s str ->
      exists rs s', '(r, s1) <- sbstep junk s o ;; '(rs, s2) <- sbrun junk s1 os ;; Ret (r :: rs, s2)
         = Ret (rs, s') /\ Forall2 answer_ok (o :: os) rs /\ sb_holds s' (text l (o :: os) rs) /\ sbcap s <= sbcap s').
    { intros a str Hn0 Ha Ho Es. rewrite Es. rewrite Ha in Hl.
      destruct (concat_ok junk a s l str H Hn0) as (r & s1 & E & Hcap & _ & Hr); [lia|].
      rewrite E. cbn [bind].
      assert (H1 : sb_holds s1 (if r =? C_OK then l ++ str else l)).
      { destruct Hr as [[-> Hr]|(-> & _ & ->)]; [exact Hr|exact H]. }
      destruct (IH s1 _ H1 Hv2) as (rs & s2 & E2 & Ha2 & Ht2 & Hc2).
      { destruct (r =? C_OK); [rewrite app_length|]; lia. }
      rewrite E2. cbn [bind]. exists (r :: rs), s2. split; [reflexivity|]. split; [|split; [|lia]].
      - constructor; [|exact Ha2]. destruct Hr as [[-> _]|(-> & -> & _)]; [now left|]. right.
        split; [reflexivity|]. destruct Ho as [->|(ch & ->)]; reflexivity.
      - destruct Ho as [->|(ch & ->)]; cbn [text]; rewrite Ha; exact Ht2. }
    destruct o as [a str|a ch|].
    + apply (Hcat a str); auto.
    + apply (Hcat a (if ch =? 0 then [] else [ch])); [|reflexivity|right; now exists ch|reflexivity].
      destruct (Z.eqb_spec ch 0); simpl; [tauto|]. intros [E|[]]; congruence.
    + clear Hcat. cbn [sbstep]. destruct (clear_ok s l H) as (s1 & E & H1 & Hcap & _).
      rewrite E. cbn [bind]. destruct (IH s1 [] H1 Hv2) as (rs & s2 & E2 & Ha2 & Ht2 & Hc2).
      { cbn [length added] in *. lia. }
      rewrite E2. cbn [bind]. exists (C_OK :: rs), s2. split; [reflexivity|]. split; [|split; [|lia]].
      * constructor; [now left|exact Ha2].
      * exact Ht2.
Qed.

(** Copy and duplicate. *)
Lemma dup_ok junk s l : sb_holds s l -> sbcap s < INT_MAX ->
  exists n, sb_Duplicate junk true s = Ret (Some n) /\ sb_holds n l /\ sbcap n = sbcap s /\ sbread n = 0.
Proof.
  intros H Hcap. pose proof H as (b & Eb & Hb & Hs & Hc & Hbs & Hnz). unfold sb_Duplicate.
  destruct (new_ok junk (sbcap s)) as (n & En & Hn & Hcn & Hrn); [lia|lia|].
  rewrite En. cbn [bind]. destruct (Z.ltb_spec 0 (sbsize s)) as [Hp|Hp].
  - destruct Hn as (nb & Enb & Hnb & _ & _ & Hnbs & _). rewrite Enb, Eb.
    pose proof Hb as (Hb1 & _).
    assert (Enb' : nb = mkBlk (sbcap s + 1) (bdat nb)) by (destruct nb as [z0 f0]; cbn [bsz bdat] in *; f_equal; lia).
    rewrite Enb'.
    destruct (copy_holds (bdat nb) b l (sbcap s + 1) Hb Hnz) as (d & Ed & Esd & Hd); [lia|].
    rewrite Ed. cbn [bind]. eexists. split; [reflexivity|]. cbn [sbcap sbread]. split; [|auto].
    exists d. cbn [sbuf sbsize sbcap]. split; [reflexivity|]. split; [exact Hd|]. split; [lia|]. split; [lia|]. split; [lia|auto].
  - exists n. split; [reflexivity|]. split; [|auto]. destruct l; [exact Hn|]. simpl in Hs. lia.
Qed.

Lemma take_ok junk s l : sb_holds s l ->
  exists b s', sb_TakeString true junk s = Ret (Some b, s') /\ holds_string b l /\ sb_holds s' [].
Proof.
  intros (b & Eb & Hb & Hs & Hc & Hbs & Hnz). unfold sb_TakeString.
  rewrite b_wr_ok by (cbn [bsz]; lia). cbn [bind]. rewrite Eb. eexists _, _.
  split; [reflexivity|]. split; [exact Hb|]. eexists. cbn [sbuf sbsize sbcap]. split; [reflexivity|].
  unfold holds_string. cbn [bsz bdat length].
  split; [|simpl; split; [lia|]; split; [lia|]; split; [lia|auto]].
  split; [lia|]. split; [intros i Hi; lia|]. apply upd_same.
Qed.

(** Read position: skipping stops inside the text or at its terminator. *)
Lemma skip_ok p b l : holds_string b l -> (forall x, In x l -> ascii x = true) -> p 0 = false ->
  forall l2 l1 fuel, l = l1 ++ l2 -> (length l2 < fuel)%nat ->
  exists u v, l2 = u ++ v /\ Forall (fun x => p x = true) u /\
    match v with x :: _ => p x = false | [] => True end /\
    skip_while fuel p b (Z.of_nat (length l1)) = Ret (Z.of_nat (length l1 + length u)).
Proof.
  intros (Hb & Hl & Hz) Hasc Hp0. induction l2 as [|x l2 IH]; intros l1 fuel El Hf;
    (destruct fuel as [|fuel]; [simpl in Hf; lia|]); cbn [skip_while].
  - rewrite app_nil_r in El. subst l1. rewrite b_rd_ok by lia. cbn [bind]. rewrite Hz.
    change (ascii 0) with true. cbn [guard]. rewrite Hp0. exists [], []. split; [reflexivity|].
    split; [constructor|]. split; [auto|]. cbn [length]. now rewrite Nat.add_0_r.
  - assert (Hlen : length l = (length l1 + S (length l2))%nat) by (rewrite El, app_length; reflexivity).
    assert (Hx : bdat b (Z.of_nat (length l1)) = x).
    { rewrite Hl by lia. rewrite El, app_nth2 by lia. now rewrite Nat.sub_diag. }
    rewrite b_rd_ok by lia. cbn [bind]. rewrite Hx.
    rewrite (Hasc x) by (rewrite El; apply in_or_app; right; now left). cbn [guard].
    destruct (p x) eqn:Ep.
    + destruct (IH (l1 ++ [x]) fuel) as (u & v & E1 & E2 & E3 & E4).
      { now rewrite <- app_assoc. } { simpl in Hf. lia. }
      exists (x :: u), v. split; [simpl; congruence|]. split; [now constructor|]. split; [auto|].
      rewrite app_length in E4. cbn [length] in *.
      replace (Z.of_nat (length l1) + 1) with (Z.of_nat (length l1 + 1)) by lia. rewrite E4.
      f_equal. lia.
    + exists [], (x :: l2). split; [reflexivity|]. split; [constructor|]. split; [auto|].
      cbn [length]. now rewrite Nat.add_0_r.
Qed.
