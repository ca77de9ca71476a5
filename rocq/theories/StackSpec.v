(** * StackSpec: a bounded stack as a plain list, top of stack first. *)
From Verif Require Import Base StackM.

(** Content and capacity. *)
Record lstk := mkL { items : list Z; lcap : Z }.
Definition lsize (s : lstk) : Z := Z.of_nat (length (items s)).

(** Element at distance [pos] from the bottom. *)
Definition from_bottom (s : lstk) (pos : Z) : Z := nth (Z.to_nat pos) (rev (items s)) 0.
Definition set_bottom (s : lstk) (pos v : Z) : list Z :=
  rev (firstn (Z.to_nat pos) (rev (items s)) ++ [v] ++ skipn (S (Z.to_nat pos)) (rev (items s))).

(** What each call must answer, and the next abstract state. *)
Definition spec_step (s o : lstk) (c : sop) : Z * list Z * lstk :=
  let cap := lcap s in
  match c with
  | SPush _ a => if lsize s <? cap then (C_OK, [], mkL (a :: items s) cap) else (C_NOTOK, [], s)
  | SPush2 _ a b => if lsize s + 2 <=? cap then (C_OK, [], mkL (b :: a :: items s) cap) else (C_NOTOK, [], s)
  | SPop _ => match items s with x :: l => (C_OK, [x], mkL l cap) | [] => (C_NOTOK, [], s) end
  | SPopDiscard _ => match items s with x :: l => (C_OK, [], mkL l cap) | [] => (C_NOTOK, [], s) end
  | SPop2 _ => match items s with b :: a :: l => (C_OK, [a; b], mkL l cap) | _ => (C_NOTOK, [], s) end
  | SPop2Discard1 _ => match items s with b :: a :: l => (C_OK, [a], mkL l cap) | _ => (C_NOTOK, [], s) end
  | SPop2Discard _ => match items s with b :: a :: l => (C_OK, [], mkL l cap) | _ => (C_NOTOK, [], s) end
  | STop _ => (C_OK, [hd NIL (items s)], s)
  | SGet _ pos => (if (0 <=? pos) && (pos <? lsize s) then from_bottom s pos else C_NOTOK, [], s)
  | SSet _ pos v => if (0 <=? pos) && (pos <? lsize s) then (v, [], mkL (set_bottom s pos v) cap)
                    else (C_NOTOK, [], s)
  | SClear _ => (C_OK, [], mkL [] cap)
  | SSetSize _ n => if n <=? lsize s
                    then (C_OK, [], mkL (skipn (Z.to_nat (lsize s - n)) (items s)) cap)
                    else (C_NOTOK, [], s)
  | SSize _ => (lsize s, [], s)
  | SCopyFromOther _ => (C_OK, [], mkL (items o) (if cap <? lsize o then lcap o else cap))
  | SReplaceByDupOfOther _ => (C_OK, [], mkL (items o) (lcap o))
  end.

(** The only caller obligation: a new size is either a truncation or beyond the capacity
    (between the two, uninitialised cells would become visible; negative ones are not checked by the code). *)
Definition sop_ok (s : lstk) (c : sop) : bool :=
  match c with SSetSize _ n => ((0 <=? n) && (n <=? lsize s)) || (lcap s <? n) | _ => true end.

(** The call does not over- or underflow the stack nor index outside it. *)
Definition sop_in_bounds (s : lstk) (c : sop) : bool :=
  match c with
  | SPush _ _ => lsize s <? lcap s
  | SPush2 _ _ _ => lsize s + 2 <=? lcap s
  | SPop _ | SPopDiscard _ => 1 <=? lsize s
  | SPop2 _ | SPop2Discard1 _ | SPop2Discard _ => 2 <=? lsize s
  | SGet _ pos => (0 <=? pos) && (pos <? lsize s)
  | SSet _ pos _ => (0 <=? pos) && (pos <? lsize s)
  | _ => true
  end.

Fixpoint spec_run (A B : lstk) (h : list sop) : list (Z * list Z) * (lstk * lstk) :=
  match h with
  | [] => ([], (A, B))
  | c :: h =>
      if op_side c then
        let '(r, vs, A1) := spec_step A B c in
        let '(outs, st) := spec_run A1 B h in ((r, vs) :: outs, st)
      else
        let '(r, vs, B1) := spec_step B A c in
        let '(outs, st) := spec_run A B1 h in ((r, vs) :: outs, st)
  end.

(** [ok] holds before every call of the history. *)
Fixpoint hist_ok (ok : lstk -> sop -> bool) (A B : lstk) (h : list sop) : bool :=
  match h with
  | [] => true
  | c :: h =>
      if op_side c then ok A c && hist_ok ok (snd (spec_step A B c)) B h
      else ok B c && hist_ok ok A (snd (spec_step B A c)) h
  end.

(** What a client can see of a concrete stack: its content, top first. *)
Definition content (s : stk) : list Z :=
  rev (map (fun i => sS s (Z.of_nat i)) (seq 0 (Z.to_nat (ssize s)))).
