(** * ListSpec: what the list collection is meant to do, in terms of lists of node numbers. *)
From Verif Require Import Base ListM.

(** Consecutive elements of [l] point at each other. *)
Fixpoint joined (c : lcoll) (l : list Z) : Prop :=
  match l with
  | a :: ((b :: _) as t) => lcnext c a = b /\ lcprev c b = a /\ joined c t
  | _ => True
  end.

(** [l], followed by its own head, is joined: a circular doubly linked list. *)
Definition circular (c : lcoll) (l : list Z) : Prop :=
  match l with [] => True | h :: _ => joined c (l ++ [h]) end.

(** The client's lists are [ls]: list number [i] has head [heads[i]] (NIL if it is empty) and is
    circular; its elements are distinct legal nodes; no node is in two lists; the cell of NIL
    (never a node) still holds NIL. *)
Record holds (s : lclient) (ls : Z -> list Z) : Prop := mkHolds {
  ho_head : forall i, cl_heads s i = hd NIL (ls i);
  ho_circ : forall i, circular (cl_c s) (ls i);
  ho_nodup : forall i, NoDup (ls i);
  ho_range : forall i x, In x (ls i) -> 0 < x < lcN (cl_c s);
  ho_disj : forall i j x, In x (ls i) -> In x (ls j) -> i = j;
  ho_nil : lcprev (cl_c s) NIL = NIL
}.

(** Documented effects on the contents. *)
Fixpoint put_after (a x : Z) (l : list Z) : list Z :=
  match l with
  | [] => []
  | b :: t => if b =? a then b :: x :: t else b :: put_after a x t
  end.
Fixpoint put_before (a x : Z) (l : list Z) : list Z :=
  match l with
  | [] => []
  | b :: t => if b =? a then x :: b :: t else b :: put_before a x t
  end.
(** Inserting before the head of a circular list: the new node becomes the last one, because
    the holder of the head is not told (LCInsertBefore returns nothing). *)
Definition insert_before (a x : Z) (l : list Z) : list Z :=
  if hd NIL l =? a then match l with [] => [] | _ => l ++ [x] end else put_before a x l.

Definition lspec (ls : Z -> list Z) (o : lop) : Z -> list Z :=
  match o with
  | LPrepend i x => upd ls i (x :: ls i)
  | LAppend i x => upd ls i (ls i ++ [x])
  | LAfter a x => fun j => put_after a x (ls j)
  | LBefore a x => fun j => insert_before a x (ls j)
  | LDelete i x => upd ls i (remove Z.eq_dec x (ls i))
  end.
Definition lspec_run (ls : Z -> list Z) (os : list lop) : Z -> list Z := fold_left lspec os ls.

(** Caller obligations: a node that is inserted is a legal node in no list; an anchor is in some
    list; a deleted node is in the list given. *)
Definition free_node (n : Z) (ls : Z -> list Z) (x : Z) : Prop :=
  0 < x < n /\ forall j, ~ In x (ls j).
Definition lop_valid (n : Z) (ls : Z -> list Z) (o : lop) : Prop :=
  match o with
  | LPrepend i x | LAppend i x => free_node n ls x
  | LAfter a x | LBefore a x => free_node n ls x /\ exists j, In a (ls j)
  | LDelete i x => In x (ls i)
  end.
Fixpoint lhist_valid (n : Z) (ls : Z -> list Z) (os : list lop) : Prop :=
  match os with
  | [] => True
  | o :: os' => lop_valid n ls o /\ lhist_valid n (lspec ls o) os'
  end.

Definition no_lists : Z -> list Z := fun _ => [].
