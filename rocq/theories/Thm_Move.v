(** * C50: moving an arc to the front or the back of its adjacency list. *)
From Coq Require Import ZifyBool.
From Verif Require Import Base BaseP GraphRec GraphM GraphSpec GSimp LinkP GraphP GraphP2 GraphP4 GraphEx MoveP.

(** [frame_links g g']: only list links and list ends may differ. *)
Theorem C50_move_arc_to_last :
  forall g adj v e, rep g adj -> In e (adj v) ->
    exists g' l1 l2, gp_MoveArcToLast g v e = Ret g' /\ adj v = l1 ++ e :: l2 /\
      rep g' (upd adj v (l1 ++ l2 ++ [e])) /\ frame_links g g'.
Proof.
  intros g adj v e R He. destruct (in_split _ _ He) as (l1 & l2 & E).
  destruct (wp_inv _ _ (move_last_ok g adj v e l1 l2 (rep_chains _ _ R) E)) as (g' & E' & F & C).
  exists g', l1, l2. do 2 (split; [auto|]). split; [|auto]. apply (rep_permute g g' adj); auto.
  intros x. rewrite E, !in_app_iff. simpl. tauto.
Qed.
Print Assumptions C50_move_arc_to_last.

Theorem C50_move_arc_to_first :
  forall g adj v e, rep g adj -> In e (adj v) ->
    exists g' l1 l2, gp_MoveArcToFirst g v e = Ret g' /\ adj v = l1 ++ e :: l2 /\
      rep g' (upd adj v (e :: l1 ++ l2)) /\ frame_links g g'.
Proof.
  intros g adj v e R He. destruct (in_split _ _ He) as (l1 & l2 & E).
  destruct (wp_inv _ _ (move_first_ok g adj v e l1 l2 (rep_chains _ _ R) E)) as (g' & E' & F & C).
  exists g', l1, l2. do 2 (split; [auto|]). split; [|auto]. apply (rep_permute g g' adj); auto.
  intros x. rewrite E. simpl. rewrite !in_app_iff. simpl. tauto.
Qed.
Print Assumptions C50_move_arc_to_first.

(** Vertex 1 has neighbours 4, 3, 2 in this order; its arc to 3 is record 5. *)
Example move_case :
  let g := built 0 4 (adds [(1, 2); (1, 3); (1, 4)]) in
  reach g /\ map (enbr g) (arcs g 1) = [4; 3; 2] /\ arcs g 1 = [7; 5; 3] /\
  (exists g', gp_MoveArcToLast g 1 5 = Ret g' /\ map (enbr g') (arcs g' 1) = [4; 2; 3]) /\
  (exists g', gp_MoveArcToFirst g 1 5 = Ret g' /\ map (enbr g') (arcs g' 1) = [3; 4; 2]).
Proof.
  cbv zeta. split; [apply built_reach; vm_compute; reflexivity|]. split; [vm_compute; reflexivity|]. split; [vm_compute; reflexivity|].
  split; eexists; (split; [vm_compute; reflexivity|vm_compute; reflexivity]).
Qed.
