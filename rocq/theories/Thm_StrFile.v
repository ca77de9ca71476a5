(** * C46: the string-or-file container. *)
From Verif Require Import Base BaseP StrBufM StrFileM StrFileSpec StrFileP.

(** For text without carriage returns, every history of reading characters, un-reading the
    last one and reading lines (buffers of at least two bytes) is the same over a string as
    over a file, and never misbehaves. *)
Theorem C46_string_reads_like_file_partial :
  forall s os, plain_text s -> no_cr s -> lines_ok os ->
    exists obs, rrun None (sf_NewStr (s ++ [0])) os = Ret obs /\ rrun None (sf_NewFile s) os = Ret obs.
Proof.
  intros s os P NC L. apply (alike_run s os P NC) with (k := O); auto.
  constructor; [reflexivity|exists []; reflexivity|lia|discriminate].
Qed.
Print Assumptions C46_string_reads_like_file_partial.

(** What the common behaviour is: the characters one by one, then EOF for ever. *)
Theorem C46_characters_in_order :
  forall s n, plain_text s ->
    rrun None (sf_NewFile s) (repeat RGet (length s + n)) = Ret (map OChar s ++ repeat (OChar C_EOF) n).
Proof.
  intros s n P. unfold sf_NewFile. generalize (@None Z). generalize (@nil Z).
  induction s as [|x s IH]; intros out o.
  - cbn [length Nat.add map app]. revert o. induction n as [|n IHn]; intros o; cbn [repeat rrun]; [reflexivity|].
    cbn [rstep sf_getc bind]. rewrite IHn. reflexivity.
  - cbn [length Nat.add repeat rrun rstep sf_getc bind map app].
    rewrite IH by (intros y Hy; apply P; simpl; auto). reflexivity.
Qed.
Print Assumptions C46_characters_in_order.

(** Texts written one after the other end up concatenated, in a file as in a string. *)
Theorem C46_writes_append :
  forall ts s, (forall x, In x s -> x <> 0) -> (forall t x, In t ts -> In x t -> x <> 0) ->
    (exists pos, wrun (sf_NewStr (s ++ [0])) ts = Ret (CStr ((s ++ concat ts) ++ [0]) pos)) /\
    wrun (CFile [] s) ts = Ret (CFile [] (s ++ concat ts)).
Proof. intros ts s H1 H2. destruct (wrun_ok ts s [] s 0 H1 H2) as [E1 E2]. eauto. Qed.
Print Assumptions C46_writes_append.

(** With carriage returns lines differ: "a\rb" is one line of a file but two of a string. *)
Theorem C46_carriage_return_refuted :
  exists s os, plain_text s /\ lines_ok os /\
    rrun None (sf_NewStr (s ++ [0])) os = Ret [OLine (Some [97; 13])] /\
    rrun None (sf_NewFile s) os = Ret [OLine (Some [97; 13; 98])].
Proof.
  exists [97; 13; 98], [RLine 10]. split; [|split; [|split; vm_compute; reflexivity]].
  - intros x [<-|[<-|[<-|[]]]]; split; discriminate.
  - intros n [[= <-]|[]]. lia.
Qed.
Print Assumptions C46_carriage_return_refuted.

(** A client that un-reads the end-of-file value (stdio ignores that): a file is unchanged, a
    string loses its last character. *)
Theorem C46_unread_at_end_refuted :
  exists s c1 c2 c1' c2', rrun None (sf_NewStr (s ++ [0])) [RGet] = rrun None (sf_NewFile s) [RGet] /\
    sf_getc (sf_NewStr (s ++ [0])) = Ret (97, c1) /\ sf_getc (sf_NewFile s) = Ret (97, c2) /\
    sf_getc c1 = Ret (C_EOF, c1) /\ sf_getc c2 = Ret (C_EOF, c2) /\
    sf_ungetc C_EOF c1 = Ret (C_EOF, c1') /\ sf_ungetc C_EOF c2 = Ret (C_EOF, c2') /\
    c2' = c2 /\ c1' = CStr [C_EOF; 0] 0.
Proof. exists [97]. do 4 eexists. repeat (split; [vm_compute; reflexivity|]). vm_compute; reflexivity. Qed.
Print Assumptions C46_unread_at_end_refuted.

(** A buffer size of 0: the string version writes before the start of the buffer. *)
Theorem C46_zero_count_refuted :
  exists s b, sf_fgets b 0 (sf_NewStr (s ++ [0])) = UB.
Proof. exists [97], (mkBlk 1 (fun _ => 0)). reflexivity. Qed.
Print Assumptions C46_zero_count_refuted.

(** "ab\nc": a character, un-read, a line, a line, a line at the end. *)
Example strfile_case :
  let s := [97; 98; 10; 99] in let os := [RGet; RUnget; RLine 10; RGet; RLine 2; RUnget] in
  plain_text s /\ no_cr s /\ lines_ok os /\
  rrun None (sf_NewStr (s ++ [0])) os = Ret [OChar 97; OChar 97; OLine (Some [97; 98; 10]); OChar 99; OLine None; ONothing].
Proof.
  cbv zeta. split; [|split; [|split]].
  - intros x Hx. simpl in Hx. repeat (destruct Hx as [<-|Hx]; [split; discriminate|]). destruct Hx.
  - intros Hx. simpl in Hx. unfold CH_CR in Hx. repeat (destruct Hx as [Hx|Hx]; [discriminate|]). destruct Hx.
  - intros n Hx. simpl in Hx. repeat (destruct Hx as [Hx|Hx]; [first [discriminate|injection Hx as <-; lia]|]). destruct Hx.
  - vm_compute. reflexivity.
Qed.
