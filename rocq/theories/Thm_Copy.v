(** * C14: copying graphs. *)
From Coq Require Import ZifyBool.
From Verif Require Import Base BaseP GraphRec GraphM GraphSpec GraphP4 CopySpec CopyP GraphEx.

(** The functions are pure in the model, so "the source is unchanged" and "later changes to one graph
    do not show in the other" are structural; the aliasing that does exist in the C code concerns the
    extensions and is modelled in ExtM.v (C32). *)
Theorem C14_copy_graph :
  forall dst adjd src adj, rep dst adjd -> Z.of_nat (length (gstack dst)) <= gstackCap dst ->
    rep src adj -> 0 < gCap src ->
    (gN dst <> gN src -> gp_CopyGraph dst src = Ret (dst, C_NOTOK)) /\
    (gN dst = gN src -> exists c, gp_CopyGraph dst src = Ret (c, C_OK) /\
       same_content src c /\ gCap c = Z.max (gCap dst) (gCap src) /\ rep c adj).
Proof.
  intros dst adjd src adj R Hs Rs Hc. split.
  - intros HN. unfold gp_CopyGraph. replace (gN dst =? gN src) with false by lia. reflexivity.
  - intros HN. exact (copy_graph_ok dst adjd src adj R Hs Rs Hc HN).
Qed.
Print Assumptions C14_copy_graph.

Theorem C14_copy_adjacency_lists :
  forall dst adjd src adj, rep dst adjd -> Z.of_nat (length (gstack dst)) <= gstackCap dst ->
    rep src adj -> 0 < gCap src ->
    (gN dst <> gN src -> gp_CopyAdjacencyLists dst src = Ret (dst, C_NOTOK)) /\
    (gN dst = gN src -> exists d c, gp_CopyAdjacencyLists dst src = Ret (c, C_OK) /\
       (d = dst \/ grown dst d (gCap src)) /\ gCap d = Z.max (gCap dst) (gCap src) /\ lists_copied src d c /\
       ((forall v, gN src < v -> adj v = [] /\ adjd v = []) -> rep c adj)).
Proof.
  intros dst adjd src adj R Hs Rs Hc. split.
  - intros HN. unfold gp_CopyAdjacencyLists. replace (gN dst =? gN src) with false by lia. reflexivity.
  - intros HN. exact (copy_lists_ok dst adjd src adj R Hs Rs Hc HN).
Qed.
Print Assumptions C14_copy_adjacency_lists.

Theorem C14_dup_graph :
  forall src adj, rep src adj -> 0 < gCap src ->
    exists c, gp_DupGraph src = Ret (Some c) /\ same_content src c /\ rep c adj /\
      gCap c = Z.max (6 * gN src) (gCap src).
Proof. exact dup_graph_ok. Qed.
Print Assumptions C14_dup_graph.

(** A destination smaller than its source, both with edges and one with a recycled slot. *)
Example copy_case :
  let src := built 40 4 (adds [(1, 2); (2, 3); (3, 4)] ++ [GDel 2 0]) in
  let dst := built 2 4 (adds [(1, 4)]) in
  reach src /\ reach dst /\ gN dst = gN src /\ 0 < gCap src /\
  Z.of_nat (length (gstack dst)) <= gstackCap dst /\ (exists c, gp_CopyGraph dst src = Ret (c, C_OK) /\ gCap c = 40 /\ gM c = 2).
Proof.
  cbv zeta. split; [apply built_reach; vm_compute; reflexivity|].
  split; [apply built_reach; vm_compute; reflexivity|].
  split; [vm_compute; reflexivity|]. split; [vm_compute; reflexivity|]. split; [vm_compute; discriminate|].
  set (src := built 40 4 _). set (dst := built 2 4 _).
  exists (fst (the (src, 0) (gp_CopyGraph dst src))). split; [vm_compute; reflexivity|]. split; vm_compute; reflexivity.
Qed.
