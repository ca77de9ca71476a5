(** * RandSpec: what the random graph generators should deliver. *)
From Verif Require Import Base GraphRec GraphM GraphSpec DFSSpec.

(** No loops and no parallel edges. *)
Definition simple (g : graph) (adj : Z -> list Z) : Prop :=
  (forall v e, In e (adj v) -> enbr g e <> v) /\
  (forall v e f, In e (adj v) -> In f (adj v) -> enbr g e = enbr g f -> e = f).
Definition adjacent (g : graph) (adj : Z -> list Z) (u v : Z) : Prop :=
  exists e, In e (adj u) /\ enbr g e = v.
Definition all_connected (g : graph) (adj : Z -> list Z) : Prop :=
  forall u v, primary g u -> primary g v -> connected g adj u v.

(** A value of rand() on which mixing the bits does not overflow int. *)
Definition draw_ok (r : Z) : Prop :=
  0 <= r <= INT_MAX /\ (r + r / 65536 + 255 <= INT_MAX \/ INT_MAX < r + r / 65536).
Definition stream_ok (rnd : nat -> Z) : Prop := forall k, draw_ok (rnd k).
(** The number between lo and hi made out of a value r of rand(). *)
Definition mixed (r : Z) : Z :=
  let n := r + r / 65536 in (n + n / 256 mod 256) mod 134217728.
Definition pick (r lo hi : Z) : Z := if hi <? lo then lo else lo + mixed r mod (hi - lo + 1).

(** Every pair is drawn again and again, by the two calls number s+2i and s+2i+1. *)
Definition fair (N : Z) (s : nat) (rnd : nat -> Z) : Prop :=
  forall u v, 1 <= u < v -> v <= N -> forall j, exists i, (j <= i)%nat /\
    pick (rnd (s + 2 * i)%nat) 1 (N - 1) = u /\ pick (rnd (s + 2 * i + 1)%nat) (u + 1) N = v.
Definition fair_ex (N : Z) (s : nat) (rnd : nat -> Z) : Prop :=
  forall u v, 1 <= u <= N -> 1 <= v <= N -> forall j, exists i, (j <= i)%nat /\
    pick (rnd (s + 2 * i)%nat) 1 N = u /\ pick (rnd (s + 2 * i + 1)%nat) 1 N = v.

(** Does not misbehave, and if it returns then with Q: termination is a separate matter. *)
Definition pc {A} (m : res A) (Q : A -> Prop) : Prop :=
  match m with Ret a => Q a | UB => False | OOF => True end.

(** An initialised graph without edges. *)
Record empty_graph (g : graph) : Prop := {
  eg_rep : rep g no_adj;
  eg_flags : forall e, 2 <= e < gp_EdgeIndexBound g -> eflags g e = 0;
  eg_parents : forall v, primary g v -> par g v = NIL }.
