(** * GraphEx: running concrete edit histories, to write down witnesses and examples. *)
From Coq Require Import ZifyBool.
From Verif Require Import Base BaseP GraphRec GraphM GraphSpec GSimp LinkP GraphP GraphP2 GraphP3 GraphP4 GraphP5.

Definition link_okb (l : Z) : bool := (l =? 0) || (l =? 1).
Definition in_useb (g : graph) (e : Z) : bool :=
  (2 <=? e) && (e <? gp_EdgeInUseIndexBound g) && negb (enbr g e =? NIL).
Definition arc_ofb (g : graph) (v e : Z) : bool := in_useb g e && (enbr g (twin e) =? v).
Definition gop_validb (g : graph) (o : gop) : bool :=
  match o with
  | GAdd _ ul _ vl => link_okb ul && link_okb vl
  | GDyn _ ul _ vl => link_okb ul && link_okb vl && (2 * gCap g <=? INT_MAX) && (gN g * (gN g - 1) <=? INT_MAX)
  | GIns u eu ul v ev vl => ((eu =? NIL) || arc_ofb g u eu) && ((ev =? NIL) || arc_ofb g v ev)
  | GDel e l => in_useb g e && link_okb l
  | GMark e _ => in_useb g e
  | GEnsure _ | GReinit => true
  end.
Lemma gop_validb_ok g o : gop_validb g o = true -> gop_valid g o.
Proof.
  destruct o; cbn [gop_validb gop_valid]; unfold dyn_fits, arc_ofb, in_useb, link_okb, link_ok, in_use, arc_of; lia.
Qed.

(** Run a history from a fresh graph; every call must return OK (or, for gp_DeleteEdge, anything). *)
Fixpoint run_ops (g : graph) (l : list gop) : res graph :=
  match l with
  | [] => Ret g
  | o :: l' => if gop_validb g o then '(g, r) <- gstep g o ;; run_ops g l' else UB
  end.
Definition build (req N : Z) (l : list gop) : res graph :=
  if 1 <=? N then g <- fresh_graph req N ;; run_ops g l else UB.
Definition adds (l : list (Z * Z)) : list gop := map (fun p => GAdd (fst p) 0 (snd p) 0) l.

Lemma run_ops_reach l : forall g g', reach g -> run_ops g l = Ret g' -> reach g'.
Proof.
  induction l as [|o l IH]; cbn [run_ops]; intros g g' H E.
  - now injection E as <-.
  - destruct (gop_validb g o) eqn:V; [|discriminate]. apply gop_validb_ok in V.
    destruct (gstep g o) as [[g1 r]| |] eqn:E1; cbn [bind] in E; try discriminate.
    eapply IH; [|exact E]. eapply reach_step; eauto.
Qed.
Lemma build_reach req N l g : build req N l = Ret g -> reach g.
Proof.
  unfold build. destruct (1 <=? N) eqn:HN; [|discriminate].
  destruct (fresh_graph req N) as [g0| |] eqn:E0; cbn [bind]; try discriminate.
  intros E. eapply run_ops_reach; [|exact E]. eapply reach_init; [|exact E0]. lia.
Qed.
(** The result of a run, for stating witnesses as terms that compute. *)
Definition the {A} (d : A) (m : res A) : A := match m with Ret x => x | _ => d end.
Definition built (req N : Z) (l : list gop) : graph := the gp_New (build req N l).
Definition is_ret {A} (m : res A) : bool := match m with Ret _ => true | _ => false end.
Lemma built_reach req N l : is_ret (build req N l) = true -> reach (built req N l).
Proof.
  unfold built. destruct (build req N l) eqn:E; try discriminate. intros _. cbn [the]. eapply build_reach, E.
Qed.

(** The adjacency list of a vertex as a client would read it. *)
Fixpoint arcs_from (n : nat) (g : graph) (e : Z) : list Z :=
  match n with O => [] | S n' => if e =? NIL then [] else e :: arcs_from n' g (enext g e) end.
Definition arcs (g : graph) (v : Z) : list Z := arcs_from (efuel g) g (vfirst g v).
Lemma arcs_from_ok g l : forall n, (length l < n)%nat -> walks (enext g) l -> (forall e, In e l -> e <> NIL) ->
  arcs_from n g (hd NIL l) = l.
Proof.
  induction l as [|e l IH]; intros n Hn W Hz; (destruct n as [|n]; [cbn [length] in Hn; lia|]); cbn [arcs_from hd].
  - reflexivity.
  - cbn [length] in Hn. rewrite eqb_false_neq by (apply Hz; simpl; auto). destruct W as [W1 W2].
    rewrite W1, IH; auto; [lia|]. intros; apply Hz; simpl; auto.
Qed.
Lemma arcs_ok g adj v : chains g adj -> is_vertex g v -> adj v = arcs g v.
Proof.
  intros C Hv. unfold arcs. rewrite (ch_first _ _ C) by auto. symmetry. apply arcs_from_ok.
  - exact (adj_len _ _ v C).
  - apply chains_walks; auto.
  - intros e He. pose proof (ch_range _ _ C _ _ He). unfold NIL. lia.
Qed.
