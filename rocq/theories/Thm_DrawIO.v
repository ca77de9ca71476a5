(** * Thm_DrawIO: the drawing section (C45). *)
From Coq Require Import ZifyBool String.
From Verif Require Import Base BaseP GraphRec GraphM GraphSpec GSimp LinkP GraphP GraphP2 GraphP4 GraphP5 GraphEx StrBufM
  DFSSpec DFSP DFSP7 RandSpec DrawM DrawSpec IOM IOSpec IOP9 Thm_IO DrawIOM DrawIOSpec DrawIOP.
Import ListNotations.
Open Scope Z_scope.

(** What is written, for any graph (deleted edges included): the block holds exactly the text of the
    section, and nothing is written outside the block. *)
Theorem C45_written_text : forall junk c adj, rep (dG c) adj -> gCap (dG c) <= INT_MAX - 2 ->
  (forall v, 1 <= v <= gN (dG c) -> rec_ok (dV c v)) ->
  (forall e, 2 <= e < gp_EdgeInUseIndexBound (dG c) -> rec_ok (dE c e)) ->
  64 * (gN (dG c) + 2 * gM (dG c) + 2) <= INT_MAX ->
  exists b n, _DrawPlanar_WritePostprocess junk c = Ret (Some (b, n), C_OK) /\
    block_text b n = section_text (gN (dG c)) (gp_EdgeInUseIndexBound (dG c)) (fun e => negb (enbr (dG c) e =? NIL))
                       (zero_based (dG c)) (dV c) (dE c).
Proof.
  intros junk c adj R HC HV HE HI. destruct (write_section_ok junk c adj R HC HV HE HI) as (b & E & T). eauto.
Qed.
Print Assumptions C45_written_text.

(** Reading the section into the drawing of a graph with the same order and the same number of edge
    records gives the same positions and extents of every vertex and every edge record, whatever was
    stored before, and whatever stands before (without the character '<') and behind the section.
    Missing: deleted edges, and the numbering of the edges by the reader of the graph (both refuted
    below). *)
Theorem C45_section_round_trip_partial : forall junk c adj c2 pre post,
  rep (dG c) adj -> gholes (dG c) = [] -> gp_EdgeIndexBound (dG c2) <= INT_MAX -> gCap (dG c) <= INT_MAX - 2 ->
  (forall v, 1 <= v <= gN (dG c) -> rec_ok (dV c v)) ->
  (forall e, 2 <= e < gp_EdgeInUseIndexBound (dG c) -> rec_ok (dE c e)) ->
  64 * (gN (dG c) + 2 * gM (dG c) + 2) <= INT_MAX ->
  gN (dG c2) = gN (dG c) -> gp_EdgeInUseIndexBound (dG c2) = gp_EdgeInUseIndexBound (dG c) ->
  gp_EdgeInUseIndexBound (dG c2) <= gp_EdgeIndexBound (dG c2) -> ~ In 60 pre ->
  exists b n c', _DrawPlanar_WritePostprocess junk c = Ret (Some (b, n), C_OK) /\
    _DrawPlanar_ReadPostprocess c2 (Some (pre ++ block_text b n ++ post)) = Ret (c', C_OK) /\
    dG c' = dG c2 /\ (forall v, 1 <= v <= gN (dG c) -> dV c' v = dV c v) /\
    (forall e, 2 <= e < gp_EdgeInUseIndexBound (dG c) -> dE c' e = dE c e).
Proof.
  intros junk c adj c2 pre post R HH HI2 HC HV HE HI EN EB HB HP.
  destruct (write_section_ok junk c adj R HC HV HE HI) as (b & E & T). pose proof (rep_storage _ _ R) as St.
  pose proof (st_N _ _ St). pose proof (st_M _ _ St).
  assert (AU : forall e, 2 <= e < gp_EdgeInUseIndexBound (dG c) -> usedb (dG c) e = true).
  { intros e He. unfold usedb. assert (In e (adj (enbr (dG c) (twin e)))) as Ha.
    { destruct (st_cover _ _ St e He) as [H1|H1]; [exact H1|]. rewrite HH in H1. destruct H1. }
    destruct (rep_twins _ _ R _ _ Ha) as [_ H1].
    destruct (Z.eqb_spec (enbr (dG c) e) NIL) as [Q|Q]; [|reflexivity]. rewrite Q in H1.
    rewrite (ch_out _ _ (rep_chains _ _ R)) in H1 by (unfold is_vertex, NIL; lia). destruct H1. }
  assert (B2 : 2 <= gp_EdgeInUseIndexBound (dG c)) by (unfold gp_EdgeInUseIndexBound; lia).
  assert (B3 : 2 <= gp_EdgeInUseIndexBound (dG c) <= gp_EdgeIndexBound (dG c2)) by (rewrite <- EB in *; lia).
  assert (B4 : 1 <= gN (dG c) <= INT_MAX) by lia.
  destruct (read_section_ok c2 (gN (dG c)) (gp_EdgeInUseIndexBound (dG c)) (usedb (dG c)) (negb (Z.land (giflags (dG c)) 8 =? 0)) (dV c) (dE c) pre post
     (eq_sym EN) (eq_sym EB) B4 B3 HI2 AU HV HE HP) as (c' & E2 & G & V & D).
  exists b, (Z.of_nat (length (the_text c))), c'. split; [exact E|]. rewrite T. split; [exact E2|]. auto.
Qed.
Print Assumptions C45_section_round_trip_partial.

(** The path 1-2-3 drawn with one column for each edge. *)
Definition path_graph : graph := built 0 3 (adds [(2, 3); (1, 2)]).
Definition path_drawing : dctx :=
  mkC path_graph
      (fun v => if v =? 1 then mkD 0 1 1 else if v =? 2 then mkD 1 0 1 else if v =? 3 then mkD 2 0 0 else mkD 0 0 0)
      (fun e => if e <? 4 then mkD 0 1 2 else mkD 1 0 1).
Lemma path_graph_ok : exists adj, rep path_graph adj /\ simple path_graph adj /\ primary_edges path_graph adj /\ undirected path_graph adj.
Proof. eapply demo_graph; [reflexivity|vm_compute; reflexivity..]. Qed.
Example section_case : exists adj, let c := path_drawing in
  rep (dG c) adj /\ gholes (dG c) = [] /\ gp_EdgeIndexBound (dG c) <= INT_MAX /\ gCap (dG c) <= INT_MAX - 2 /\
  (forall v, 1 <= v <= gN (dG c) -> rec_ok (dV c v)) /\
  (forall e, 2 <= e < gp_EdgeInUseIndexBound (dG c) -> rec_ok (dE c e)) /\
  64 * (gN (dG c) + 2 * gM (dG c) + 2) <= INT_MAX /\ gp_EdgeInUseIndexBound (dG c) <= gp_EdgeIndexBound (dG c).
Proof.
  destruct path_graph_ok as (adj & R & _).
  exists adj. cbv zeta. split; [exact R|]. split; [vm_compute; reflexivity|]. split; [vm_compute; discriminate|]. split; [vm_compute; discriminate|].
  split; [|split; [|split; [vm_compute; discriminate|vm_compute; discriminate]]].
  - intros v _. cbn [path_drawing dV]. destruct (v =? 1); [|destruct (v =? 2); [|destruct (v =? 3)]]; unfold rec_ok, INT_MAX; cbn; lia.
  - intros e _. cbn [path_drawing dE]. destruct (e <? 4); unfold rec_ok, INT_MAX; cbn; lia.
Qed.
Example section_text_case :
  match _DrawPlanar_WritePostprocess (fun _ => 7) path_drawing with
  | Ret (Some (b, n), r) => block_text b n = txt "<DrawPlanar>|1: 0 1 1|2: 1 0 1|3: 2 0 0|2: 0 1 2|3: 0 1 2|4: 1 0 1|5: 1 0 1|</DrawPlanar>|"%string /\ r = C_OK
  | _ => False
  end.
Proof. vm_compute. split; reflexivity. Qed.

(** Writing a drawn graph as an adjacency list followed by its drawing section, and reading both. *)
Definition reread (c : dctx) : res (dctx * Z) :=
  '(t, _) <- _WriteAdjList (dG c) ;;
  '(o, _) <- _DrawPlanar_WritePostprocess (fun _ => 0) c ;;
  match o with
  | None => Ret (c, C_NOTOK)
  | Some (b, n) =>
      '(h, i, r) <- _ReadAdjList 20 gp_New (SFile (t ++ block_text b n)) ;;
      match i with
      | SFile rest => if r =? C_OK then _DrawPlanar_ReadPostprocess (mkC h (fun _ => mkD 0 0 0) (fun _ => mkD 0 0 0)) (Some rest) else Ret (c, r)
      | _ => Ret (c, C_NOTOK)
      end
  end.
Definition run_c (m : res (dctx * Z)) (r : Z) (P : dctx -> bool) : bool :=
  match m with Ret (c, x) => (x =? r) && P c | _ => false end.
Lemma run_c_ok m r P : run_c m r P = true -> exists c, m = Ret (c, r) /\ P c = true.
Proof. destruct m as [[c x]| |]; cbn; try discriminate. intros H. exists c. split; [do 2 f_equal; lia|lia]. Qed.

(** The edges are numbered anew when the graph is read, but the section refers to them by number: a
    drawing that passes the check comes back with the positions on the wrong edges, and fails it. *)
Theorem C45_reread_refuted : exists c adj c' e e',
  rep (dG c) adj /\ simple (dG c) adj /\ primary_edges (dG c) adj /\ undirected (dG c) adj /\ gholes (dG c) = [] /\
  (exists x, _CheckVisibilityRepresentationIntegrity c = Ret (x, C_OK)) /\
  reread c = Ret (c', C_OK) /\
  enbr (dG c') e' = enbr (dG c) e /\ enbr (dG c') (twin e') = enbr (dG c) (twin e) /\ In e (adj 2) /\
  dpos (dE c e) = 0 /\ dpos (dE c' e') = 1 /\
  (exists x, _CheckVisibilityRepresentationIntegrity c' = Ret (x, C_NOTOK)).
Proof.
  destruct path_graph_ok as (adj & R & S & P & U).
  set (Q := fun c' => (enbr (dG c') 5 =? 3) && (enbr (dG c') 4 =? 2) && (dpos (dE c' 5) =? 1) &&
        run_c (_CheckVisibilityRepresentationIntegrity c') C_NOTOK (fun _ => true)).
  destruct (run_c_ok (reread path_drawing) C_OK Q) as (c' & E & K); [vm_compute; reflexivity|]. unfold Q in K.
  apply andb_true_iff in K. destruct K as [K K4]. apply andb_true_iff in K. destruct K as [K K3]. apply andb_true_iff in K. destruct K as [K1 K2].
  exists path_drawing, adj, c', 3, 5. split; [exact R|]. split; [exact S|]. split; [exact P|]. split; [exact U|].
  split; [vm_compute; reflexivity|]. split.
  { destruct (run_c_ok (_CheckVisibilityRepresentationIntegrity path_drawing) C_OK (fun _ => true)) as (x & Ex & _); [vm_compute; reflexivity|]. eauto. }
  split; [exact E|]. split; [transitivity 3; [lia|vm_compute; reflexivity]|]. split; [change (twin 5) with 4; transitivity 2; [lia|vm_compute; reflexivity]|].
  split.
  { rewrite (arcs_ok _ _ 2 (rep_chains _ _ R)) by (vm_compute; split; discriminate). vm_compute. auto. }
  split; [vm_compute; reflexivity|]. split; [lia|].
  destruct (run_c_ok _ _ _ K4) as (x & Ex & _). eauto.
Qed.
Print Assumptions C45_reread_refuted.

(** After an edge has been deleted there are fewer lines than the reader expects: reading the section
    back into the very same graph runs past the end of the text (a null pointer is advanced and read). *)
Definition hole_graph : graph := built 0 3 (adds [(2, 3); (1, 2)] ++ [GDel 2 0]).
Definition hole_drawing : dctx :=
  mkC hole_graph
      (fun v => mkD (v - 1) 0 0) (fun e => mkD 7 0 1).
Theorem C45_holes_refuted : exists c adj, rep (dG c) adj /\ gM (dG c) = 1 /\
  exists b n, _DrawPlanar_WritePostprocess (fun _ => 0) c = Ret (Some (b, n), C_OK) /\
    _DrawPlanar_ReadPostprocess (mkC (dG c) (dV c) (fun _ => mkD 0 0 0)) (Some (block_text b n)) = UB.
Proof.
  assert (HR : reach hole_graph) by (unfold hole_graph; apply built_reach; vm_compute; reflexivity).
  destruct (reach_inv _ HR) as ((adj & R) & _). exists hole_drawing, adj. split; [exact R|]. split; [vm_compute; reflexivity|].
  assert (K : match _DrawPlanar_WritePostprocess (fun _ => 0) hole_drawing with
    | Ret (Some (b, n), r) => (r = C_OK /\ _DrawPlanar_ReadPostprocess (mkC (dG hole_drawing) (dV hole_drawing) (fun _ => mkD 0 0 0)) (Some (block_text b n)) = UB)
    | _ => False end) by (vm_compute; split; reflexivity).
  destruct (_DrawPlanar_WritePostprocess (fun _ => 0) hole_drawing) as [[[[b n]|] r]| |]; try contradiction. destruct K as [-> K]. eauto.
Qed.
Print Assumptions C45_holes_refuted.
