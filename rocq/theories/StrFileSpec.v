(** * StrFileSpec: the same client code over a string and over a file. *)
From Verif Require Import Base StrBufM StrFileM.

(** The calls of a client that reads: the next character, un-reading the character just read
    (a client un-reads at most once in a row, and never the end-of-file value), a line. *)
Inductive rop := RGet | RUnget | RLine (count : Z).
(** What the client observes: a character, or a line read into its buffer (None: NULL). *)
Inductive robs := OChar (x : Z) | OLine (t : option (list Z)) | ONothing.

(** The client's buffer has [count] bytes; it sees the text before the NUL. *)
Definition text_of (b : blk) : res (list Z) := c_str (map (bdat b) (map Z.of_nat (seq 0 (Z.to_nat (bsz b))))).
Definition rstep (last : option Z) (c : container) (o : rop) : res (robs * option Z * container) :=
  match o with
  | RGet => '(x, c) <- sf_getc c ;; Ret (OChar x, (if x =? C_EOF then None else Some x), c)
  | RUnget => match last with
              | Some x => '(y, c) <- sf_ungetc x c ;; Ret (OChar y, None, c)
              | None => Ret (ONothing, None, c)   (* the client does not call *)
              end
  | RLine n => '(t, c) <- sf_fgets (mkBlk n (fun _ => 77)) n c ;;
               match t with
               | None => Ret (OLine None, None, c)
               | Some b => t <- text_of b ;; Ret (OLine (Some t), None, c)
               end
  end.
Fixpoint rrun (last : option Z) (c : container) (os : list rop) : res (list robs) :=
  match os with
  | [] => Ret []
  | o :: os' => '(ob, last, c) <- rstep last c o ;; obs <- rrun last c os' ;; Ret (ob :: obs)
  end.

(** Text that a file and a string can both hold: no NUL, and no character 0xFF (= EOF). *)
Definition plain_text (s : list Z) : Prop := forall x, In x s -> x <> 0 /\ x <> C_EOF.
Definition no_cr (s : list Z) : Prop := ~ In CH_CR s.
Definition lines_ok (os : list rop) : Prop := forall n, In (RLine n) os -> 2 <= n.

(** Writing texts one after the other. *)
Fixpoint wrun (c : container) (ts : list (list Z)) : res container :=
  match ts with [] => Ret c | t :: ts' => '(_, c) <- sf_fputs t c ;; wrun c ts' end.
