(** * C03, C49: string buffers. *)
From Verif Require Import Base BaseP StrBufM StrBufSpec StrBufP.

(** Any history of appends and clears on a new buffer, with any pattern of allocation failures:
    no out-of-bounds access, the buffer holds the concatenation of what was accepted since the
    last clear, NUL terminated, its size is the length, the capacity never shrinks, and an append
    fails only because of an allocation failure, leaving the content as it was.
    The total text is limited to 2^30-1 characters (see the refutation below). *)
Theorem C03_string_buffer_partial :
  forall (junk : Z -> Z) (capacity : Z) (os : list sbop),
    0 <= capacity < INT_MAX -> Forall sbop_valid os -> total_len os <= 1073741823 ->
    exists s rs s',
      sb_New junk true capacity = Ret (Some s) /\
      sbrun junk s os = Ret (rs, s') /\
      Forall2 answer_ok os rs /\
      sb_holds s' (text [] os rs) /\ capacity <= sbcap s'.
Proof.
  intros junk capacity os [H0 H1] Hv Hl.
  destruct (new_ok junk capacity H0 H1) as (s & E & Hs & Hcap & _).
  destruct (run_ok junk os s [] Hs Hv) as (rs & s' & Er & Ha & Ht & Hc); [simpl; unfold HALF; lia|].
  exists s, rs, s'. split; [exact E|]. split; [exact Er|]. split; [exact Ha|]. split; [exact Ht|lia].
Qed.
Print Assumptions C03_string_buffer_partial.

(** Beyond that size the doubling of the capacity overflows int. *)
Theorem C03_doubling_overflow_refuted :
  exists (s : strbuf) (l : list Z),
    sb_holds s l /\ sbcap s = 1073741824 /\ sb_ConcatChar (fun _ => 0) true s 65 = UB.
Proof.
  exists (mkSB (Some (mkBlk 1073741825 (fun i => if i <? 1073741824 then 65 else 0))) 1073741824 1073741824 0).
  exists (repeat 65 (Z.to_nat 1073741824)).
  split; [|split; [reflexivity|]].
  - eexists. cbn [sbuf sbsize sbcap]. split; [reflexivity|].
    assert (EL : Z.of_nat (length (repeat 65 (Z.to_nat 1073741824))) = 1073741824)
      by (rewrite repeat_length; apply Z2Nat.id; lia).
    split; [|split; [lia|split; [lia|split; [reflexivity|]]]].
    + split; [cbn [bsz]; lia|]. split.
      * intros i Hi. cbn [bdat]. destruct (Z.ltb_spec (Z.of_nat i) 1073741824); [|lia].
        symmetry. rewrite (nth_indep _ 0 65 Hi). apply nth_repeat.
      * rewrite EL. reflexivity.
    + intros Hin. apply repeat_spec in Hin. discriminate.
  - reflexivity.
Qed.
Print Assumptions C03_doubling_overflow_refuted.

(** Duplicating, copying and taking the content. *)
Theorem C03_duplicate_copy_take :
  forall (junk : Z -> Z) (s d : strbuf) (l : list Z),
    sb_holds s l -> sbcap s < INT_MAX ->
    (exists n, sb_Duplicate junk true s = Ret (Some n) /\ sb_holds n l /\ sbcap n = sbcap s) /\
    (exists d', sb_Copy junk true d s = Ret (C_OK, d') /\ sb_holds d' l /\ sbcap d' = sbcap s) /\
    sb_Copy junk false d s = Ret (C_NOTOK, d) /\
    (exists b s', sb_TakeString true junk s = Ret (Some b, s') /\ holds_string b l /\ sb_holds s' []).
Proof.
  intros junk s d l H Hc. destruct (dup_ok junk s l H Hc) as (n & E & Hn & Ec & _).
  split; [exists n; auto|]. split.
  - unfold sb_Copy. rewrite E. cbn [bind]. eexists. split; [reflexivity|]. cbn [sbcap]. split; [|reflexivity].
    destruct Hn as (b & Eb & Hb & Hs & Hcn & Hbs & Hnz).
    destruct H as (b0 & _ & _ & Hs0 & Hc0 & _).
    exists b. cbn [sbuf sbsize sbcap]. split; [exact Eb|]. split; [exact Hb|].
    split; [exact Hs0|]. split; [exact Hc0|]. split; [lia|exact Hnz].
  - split; [|exact (take_ok junk s l H)].
    destruct H as (b0 & _ & _ & Hs0 & Hc0 & _).
    unfold sb_Copy, sb_Duplicate, sb_New. destruct (Z.ltb_spec (sbcap s) 0); [reflexivity|].
    rewrite iadd_ok by lia. reflexivity.
Qed.
Print Assumptions C03_duplicate_copy_take.

(** C49: the skip functions advance the read position over exactly the longest run of white space
    (an optional minus sign and the longest run of digits) and never pass the terminator. *)
Theorem C49_skip_whitespace :
  forall (s : strbuf) (l1 l2 : list Z),
    sb_holds s (l1 ++ l2) -> (forall x, In x (l1 ++ l2) -> ascii x = true) ->
    sbread s = Z.of_nat (length l1) ->
    exists u v, l2 = u ++ v /\ Forall (fun x => c_isspace x = true) u /\
      match v with x :: _ => c_isspace x = false | [] => True end /\
      sb_ReadSkipWhitespace s = Ret (sb_SetReadPos s (Z.of_nat (length l1 + length u))).
Proof.
  intros s l1 l2 (b & Eb & Hb & Hs & Hc & Hbs & Hnz) Ha Hr. unfold sb_ReadSkipWhitespace. rewrite Eb, Hr.
  pose proof Hb as (Hb1 & _).
  destruct (skip_ok c_isspace b _ Hb Ha eq_refl l2 l1 (blk_fuel b) eq_refl) as (u & v & E1 & E2 & E3 & E4).
  { unfold blk_fuel. rewrite app_length in Hb1. lia. }
  exists u, v. split; [exact E1|]. split; [exact E2|]. split; [exact E3|]. rewrite E4. cbn [bind].
  unfold sb_SetReadPos. now rewrite Eb.
Qed.
Print Assumptions C49_skip_whitespace.

Theorem C49_skip_integer :
  forall (s : strbuf) (l1 sg l2 : list Z),
    sb_holds s (l1 ++ sg ++ l2) -> (forall x, In x (l1 ++ sg ++ l2) -> ascii x = true) ->
    sbread s = Z.of_nat (length l1) ->
    (sg = [45] \/ (sg = [] /\ match l2 with x :: _ => x <> 45 | [] => True end)) ->
    exists u v, l2 = u ++ v /\ Forall (fun x => c_isdigit x = true) u /\
      match v with x :: _ => c_isdigit x = false | [] => True end /\
      sb_ReadSkipInteger s = Ret (sb_SetReadPos s (Z.of_nat (length l1 + length sg + length u))).
Proof.
  intros s l1 sg l2 (b & Eb & Hb & Hs & Hc & Hbs & Hnz) Ha Hr Hsg. unfold sb_ReadSkipInteger. rewrite Eb, Hr.
  pose proof Hb as (Hb1 & Hb2 & Hb3). rewrite !app_length in Hb1.
  rewrite app_assoc in Hb, Ha.
  destruct (skip_ok c_isdigit b _ Hb Ha eq_refl l2 (l1 ++ sg) (blk_fuel b) eq_refl) as (u & v & E1 & E2 & E3 & E4).
  { unfold blk_fuel. lia. }
  exists u, v. split; [exact E1|]. split; [exact E2|]. split; [exact E3|].
  rewrite b_rd_ok by lia. cbn [bind].
  assert (Epos : (if bdat b (Z.of_nat (length l1)) =? 45 then Z.of_nat (length l1) + 1 else Z.of_nat (length l1))
                 = Z.of_nat (length (l1 ++ sg))).
  { rewrite app_length. destruct Hsg as [-> | [-> Hl2]].
    - rewrite Hb2 by (rewrite app_length; simpl; lia). rewrite app_nth2 by lia. rewrite Nat.sub_diag.
      cbn [app nth length Z.eqb Pos.eqb]. lia.
    - cbn [app length] in *. rewrite Nat.add_0_r. destruct l2 as [|x l2].
      + rewrite app_nil_r in Hb3. rewrite Hb3. reflexivity.
      + rewrite Hb2 by (rewrite app_length; simpl; lia). rewrite app_nth2 by lia. rewrite Nat.sub_diag.
        cbn [nth]. destruct (Z.eqb_spec x 45); [congruence|reflexivity]. }
  rewrite Epos, E4. cbn [bind]. unfold sb_SetReadPos. rewrite Eb, app_length. reflexivity.
Qed.
Print Assumptions C49_skip_integer.

(** After the content has been taken, or replaced by a shorter one, the read position is stale:
    a reader looks outside the buffer. *)
Theorem C49_stale_read_position_refuted :
  (exists s l b s', sb_holds s l /\ sbread s = sbsize s /\
     sb_TakeString true (fun _ => 0) s = Ret (b, s') /\ sb_PeekRead s' = UB) /\
  (exists s l d l' d', sb_holds s l /\ sb_holds d l' /\ sbread d = sbsize d /\
     sb_Copy (fun _ => 0) true d s = Ret (C_OK, d') /\ sb_PeekRead d' = UB).
Proof.
  set (b3 := mkBlk 4 (fun i => if i <? 3 then 65 else 0)).
  assert (H3 : sb_holds (mkSB (Some b3) 3 3 3) [65; 65; 65]).
  { exists b3. split; [reflexivity|]. split; [|simpl; split; [lia|]; split; [lia|]; split; [reflexivity|lia]].
    split; [reflexivity|]. split; [|reflexivity]. intros [|[|[|i]]] Hi; try reflexivity. simpl in Hi; lia. }
  split.
  - exists (mkSB (Some b3) 3 3 3), [65; 65; 65]. eexists _, _. split; [exact H3|]. split; [reflexivity|].
    split; reflexivity.
  - exists (mkSB (Some (mkBlk 1 (fun _ => 0))) 0 0 0), [], (mkSB (Some b3) 3 3 3), [65; 65; 65].
    eexists. split; [|split; [exact H3|split; [reflexivity|split; reflexivity]]].
    eexists. split; [reflexivity|]. split; [|simpl; split; [lia|]; split; [lia|]; split; [reflexivity|tauto]].
    split; [reflexivity|]. split; [|reflexivity]. intros i Hi; simpl in Hi; lia.
Qed.
Print Assumptions C49_stale_read_position_refuted.

(** A history meeting the hypotheses of C03, with its outcome: "ab" fits, "cde" is refused because
    the allocation fails, then grows, clear, "x". *)
Definition c03_history : list sbop :=
  [BConcat true [97; 98]; BConcat false [99; 100; 101]; BConcat true [99; 100; 101]; BClear; BChar false 120].
Example c03_hyps : Forall sbop_valid c03_history /\ total_len c03_history <= 1073741823.
Proof. split; [|vm_compute; discriminate]. repeat constructor; simpl; lia. Qed.
Example c03_outcome : exists s s', sb_New (fun _ => 7) true 2 = Ret (Some s) /\
  sbrun (fun _ => 7) s c03_history = Ret ([1; 0; 1; 1; 1], s') /\ text [] c03_history [1; 0; 1; 1; 1] = [120].
Proof. eexists _, _. repeat split. Qed.
