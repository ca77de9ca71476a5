(** * Thm_Emb: inverting vertices, merging root copies, joining bicomps (C41, C42, C43). *)
From Coq Require Import ZifyBool Permutation.
From Verif Require Import Base BaseP GraphRec GraphM GraphSpec GSimp LinkP GraphP GraphP2 GraphP4 GraphEx
  ListM DFSM TestM EmbM EmbSpec EmbP EmbP2 EmbP3.

(** C41.  On every well-formed graph and vertex: the list of W is reversed and its two external
    face links are exchanged, nothing else changes, and a second inversion restores the state. *)
Theorem C41_invert_vertex : forall g adj W, rep g adj -> is_vertex g W ->
  wp (_InvertVertex g W) (fun h => rep h (upd adj W (rev (adj W))) /\ inverted g h adj W) /\
  wp (h <- _InvertVertex g W ;; _InvertVertex h W) (same_state g).
Proof.
  intros g adj W R HW. split.
  - eapply wp_mono; [apply (invert_ok g adj W (rep_chains _ _ R) HW)|]. intros h I. split; [|exact I].
    eapply inverted_rep; eauto.
  - apply (invert_twice g adj W); auto. apply R.
Qed.
Print Assumptions C41_invert_vertex.

(** C42.  The arcs of R go, in order, to the chosen side of W's list; the arcs that led to R
    lead to W; R is blank; nothing else changes. *)
Theorem C42_merge_vertex : forall g adj W link R, rep g adj -> is_vertex g W -> is_vertex g R -> W <> R ->
  link = 0 \/ link = 1 -> adj R <> [] ->
  wp (_MergeVertex g W link R) (fun h => rep h (merged_lists adj W link R) /\ merged g h adj W link R).
Proof.
  intros g adj W link R Rp HW HR Hne Hl Hn.
  eapply wp_mono; [apply (merge_ok g adj W link R (rep_chains _ _ Rp) (st_even _ _ (rep_storage _ _ Rp)) HW HR Hne Hl Hn)|].
  intros h M. split; [|exact M]. eapply merged_rep; eauto.
Qed.
Print Assumptions C42_merge_vertex.

(** C43.  Joining the bicomps: the result is well formed, it has the same arcs, each endpoint
    replaced by the vertex it stands for, and the virtual vertices have no arc. *)
Theorem C43_join_bicomps : forall g adj, rep g adj -> copies_ok g adj ->
  wp (_JoinBicomps g) (fun '(h, r) =>
    r = C_OK /\ rep h (joined_lists g adj) /\ frame_core g h /\
    (forall v e, In e (adj v) -> In e (joined_lists g adj (primary_of g v)) /\
                                 enbr h e = primary_of g (enbr g e) /\ enbr h (twin e) = primary_of g v) /\
    (forall v e, In e (joined_lists g adj v) -> 1 <= v <= gN g /\ exists u, In e (adj u) /\ primary_of g u = v) /\
    eflags h = eflags g /\ gX h = gX g).
Proof.
  intros g adj R K. pose proof (rep_chains _ _ R) as C.
  assert (HN : 0 <= gN g) by (pose proof (st_N _ _ (rep_storage _ _ R)); lia).
  eapply wp_mono; [apply (join_ok g adj C (rep_twins _ _ R) (st_even _ _ (rep_storage _ _ R)) K HN)|].
  intros [h r] [Hr J]. cbn beta iota in *. split; [exact Hr|].
  assert (PP : forall u, is_vertex g u -> part_prim g (Z.to_nat (gN g)) u = primary_of g u).
  { intros u Hu. unfold part_prim, primary_of, is_vertex in *.
    destruct (Z.leb_spec u (gN g)); [replace (gN g <? u) with false by lia; reflexivity|].
    replace ((gN g <? u) && (u <=? gN g + Z.of_nat (Z.to_nat (gN g)))) with true by lia. reflexivity. }
  assert (RH : rep h (part_lists g adj (Z.to_nat (gN g)))) by (eapply part_rep; eauto; lia).
  split; [|split; [apply J|split; [|split; [|split; [apply J|apply J]]]]].
  - destruct RH as [C' T' S']. constructor.
    + eapply chains_ext; [exact C'|]. intros v. now apply joined_part.
    + intros v e H. rewrite !joined_part in * by auto. exact (T' v e H).
    + constructor; try apply S'.
      * intros v e H. rewrite joined_part in H by auto. exact (st_used _ _ S' v e H).
      * intros e H. rewrite joined_part by auto. exact (st_cover _ _ S' e H).
  - intros v e He. pose proof (ch_isvertex _ _ _ _ C He) as Hv. destruct (rep_twins _ _ R _ _ He) as [T1 T2].
    pose proof (ch_isvertex _ _ _ _ C T2) as Hv2. split; [|split].
    + rewrite joined_part by auto. apply (part_in g adj (Z.to_nat (gN g)) _ _ C K ltac:(lia)). exists v. auto.
    + rewrite <- (PP _ Hv2), <- (pj_enbr _ _ _ _ J _ _ T2). now rewrite twin_invol.
    + rewrite <- (PP _ Hv). apply J. exact He.
  - intros v e H. split.
    + unfold joined_lists in H. destruct ((1 <=? v) && (v <=? gN g)) eqn:E; [lia|destruct H].
    + rewrite joined_part in H by auto. apply (part_in g adj (Z.to_nat (gN g)) _ _ C K ltac:(lia)) in H. destruct H as (u & He & Hu).
      exists u. split; [exact He|]. rewrite <- (PP _ (ch_isvertex _ _ _ _ C He)). exact Hu.
Qed.
Print Assumptions C43_join_bicomps.

(** A graph on 3 vertices in which virtual vertex 5 (the copy of the parent of 2) carries a
    double edge to 2 and virtual vertex 6 (the copy of the parent of 3) an edge to 3; vertex 1 is
    the parent of both.  It is built with the public calls. *)
Definition split_base : graph := built 40 3 [GAdd 5 0 2 0; GAdd 5 0 2 0; GAdd 6 0 3 0; GAdd 2 0 3 0].
Definition split_graph : graph :=
  set_gVI split_base (set_viParent (gVI split_base) (upd (upd (viParent (gVI split_base)) 2 1) 3 1)).
Lemma rep_set_VI g adj i : rep g adj -> rep (set_gVI g i) adj.
Proof.
  intros [C T S]. constructor; [destruct C|exact T|destruct S]; constructor; auto.
Qed.
Example join_case : exists adj, rep split_graph adj /\ copies_ok split_graph adj /\
  adj 5 = [5; 3] /\ adj 2 = [9; 4; 2] /\ joined_lists split_graph adj 1 = [7; 5; 3] /\ is_vertex split_graph 5.
Proof.
  destruct (reach_inv split_base) as ((adj & R) & _).
  { apply built_reach. vm_compute. reflexivity. }
  exists adj. assert (R' : rep split_graph adj) by (apply rep_set_VI; exact R). clear R.
  assert (A : forall v, 1 <= v <= 6 -> adj v = arcs split_graph v).
  { intros v Hv. apply arcs_ok; [apply R'|]. change (gN split_graph) with 3. exact Hv. }
  split; [exact R'|]. split; [|split; [|split; [|split]]].
  - intros v Hv Hne. assert (v = 4 \/ v = 5 \/ v = 6) as [->|[->| ->]] by (change (gN split_graph) with 3 in Hv; lia).
    + exfalso. apply Hne. rewrite (A 4) by lia. vm_compute. reflexivity.
    + vm_compute. split; discriminate.
    + vm_compute. split; discriminate.
  - rewrite (A 5) by lia. vm_compute. reflexivity.
  - rewrite (A 2) by lia. vm_compute. reflexivity.
  - unfold joined_lists. change ((1 <=? 1) && (1 <=? gN split_graph)) with true. cbv iota.
    change (copies_of split_graph 1 (Z.to_nat (gN split_graph))) with [6; 5].
    cbn [flat_map]. rewrite (A 1), (A 5), (A 6) by lia. vm_compute. reflexivity.
  - vm_compute. split; discriminate.
Qed.
