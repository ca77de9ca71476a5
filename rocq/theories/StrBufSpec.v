(** * StrBufSpec: what a string buffer is meant to hold. *)
From Verif Require Import Base StrBufM.

(** The block holds the characters [l] followed by a NUL, inside its bounds. *)
Definition holds_string (b : blk) (l : list Z) : Prop :=
  Z.of_nat (length l) < bsz b /\
  (forall i, (i < length l)%nat -> bdat b (Z.of_nat i) = nth i l 0) /\
  bdat b (Z.of_nat (length l)) = 0.

(** The buffer holds [l]: size is its length, capacity is enough, the block has room for capacity
    characters and the terminator. *)
Definition sb_holds (s : strbuf) (l : list Z) : Prop :=
  exists b, sbuf s = Some b /\ holds_string b l /\
    sbsize s = Z.of_nat (length l) /\ sbsize s <= sbcap s /\ bsz b = sbcap s + 1 /\ ~ In 0 l.

(** Strings given by callers contain no NUL before their end. *)
Definition sbop_valid (o : sbop) : Prop :=
  match o with BConcat _ str => ~ In 0 str | _ => True end.

(** What is added by a call. *)
Definition added (o : sbop) : list Z :=
  match o with
  | BConcat _ str => str
  | BChar _ ch => if ch =? 0 then [] else [ch]
  | BClear => []
  end.
(** Content after a history, given the answer of each call: an append that answers NOTOK adds nothing. *)
Fixpoint text (l : list Z) (os : list sbop) (rs : list Z) : list Z :=
  match os, rs with
  | BClear :: os', _ :: rs' => text [] os' rs'
  | o :: os', r :: rs' => text (if r =? C_OK then l ++ added o else l) os' rs'
  | _, _ => l
  end.
(** A call answers OK, or it answers NOTOK and its allocation failed. *)
Definition answer_ok (o : sbop) (r : Z) : Prop :=
  r = C_OK \/ (r = C_NOTOK /\ match o with BConcat a _ | BChar a _ => a = false | BClear => False end).
(** Upper bound on the length reached: all characters ever given. *)
Fixpoint total_len (os : list sbop) : Z :=
  match os with [] => 0 | o :: os' => Z.of_nat (length (added o)) + total_len os' end.
