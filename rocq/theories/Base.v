(** * Base: outcome monad, arrays and constants shared by all models.

    No model of a particular C function lives here, only conventions:
    - [Ret a]  : the C code returns [a];
    - [UB]     : the C code would perform an out-of-bounds access, overflow a
                 fixed-size stack, use an uninitialised or dangling value, ...;
    - [OOF]    : the fuel given to a loop of the model ran out. *)
From Coq Require Export ZArith List Lia Bool.
Export ListNotations.
Global Open Scope Z_scope.

Inductive res (A : Type) : Type :=
| Ret (a : A)
| UB
| OOF.
Arguments Ret {A} a.
Arguments UB {A}.
Arguments OOF {A}.

Definition bind {A B} (m : res A) (k : A -> res B) : res B :=
  match m with
  | Ret a => k a
  | UB => UB
  | OOF => OOF
  end.

Notation "x <- m ;; k" := (bind m (fun x => k))
  (at level 61, m at next level, right associativity).
Notation "' p <- m ;; k" := (bind m (fun p => k))
  (at level 61, p pattern, m at next level, right associativity).

(** [guard b k]: the memory access is legal iff [b]. *)
Definition guard {A} (b : bool) (k : res A) : res A := if b then k else UB.

(** Total correctness: the computation returns (no UB, no fuel exhaustion)
    and its result satisfies [Q]. *)
Definition wp {A} (m : res A) (Q : A -> Prop) : Prop :=
  match m with
  | Ret a => Q a
  | UB => False
  | OOF => False
  end.

(** Array update. *)
Definition upd {A} (f : Z -> A) (k : Z) (v : A) : Z -> A :=
  fun x => if x =? k then v else f x.

(** c/graphLib/lowLevelUtils/appconst.h:52-53,63,67,77 *)
Definition C_OK : Z := 1.
Definition C_NOTOK : Z := 0.
Definition C_TRUE : Z := 1.
Definition C_FALSE : Z := 0.
Definition NIL : Z := 0.
(** c/graphLib/graphStructures.h:26 *)
Definition C_NONEMBEDDABLE : Z := -1.

(** Keep [simpl] away from the arithmetic of Z. *)
Global Arguments Z.add : simpl never.
Global Arguments Z.sub : simpl never.
Global Arguments Z.mul : simpl never.
Global Arguments Z.opp : simpl never.
Global Arguments Z.of_nat : simpl never.
Global Arguments Z.to_nat : simpl never.
Global Arguments Z.lxor : simpl never.
Global Arguments Z.land : simpl never.
Global Arguments Z.lor : simpl never.
Global Arguments Z.div : simpl never.
Global Arguments Z.modulo : simpl never.

(** [for (i = lo; n times; i++) body]. *)
Fixpoint for_up {A : Type} (n : nat) (i : Z) (body : Z -> A -> res A) (s : A) : res A :=
  match n with
  | O => Ret s
  | S n' => s' <- body i s ;; for_up n' (i + 1) body s'
  end.

(** [for (i = hi; n times; i--) body]. *)
Fixpoint for_down {A : Type} (n : nat) (i : Z) (body : Z -> A -> res A) (s : A) : res A :=
  match n with
  | O => Ret s
  | S n' => s' <- body i s ;; for_down n' (i - 1) body s'
  end.

(** Range of C's int. *)
Definition INT_MAX : Z := 2147483647.
Definition int_ok (z : Z) : bool := (-INT_MAX - 1 <=? z) && (z <=? INT_MAX).
