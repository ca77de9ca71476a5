(** * DFSP: proofs about depth first search. *)
From Verif Require Import Base BaseP GraphRec GraphM GraphSpec GSimp LinkP GraphP GraphP5 DFSM DFSSpec.

Lemma wp_conseq {A} (m : res A) (P Q : A -> Prop) : (forall a, P a -> Q a) -> wp m P -> wp m Q.
Proof. intros H1 H2. exact (wp_mono m P Q H2 H1). Qed.

(** ** Bits *)
Lemma land_lor_mask f t m : Z.land t m = t -> Z.land f m = 0 -> Z.land (Z.lor f t) m = t.
Proof. intros E0 E. rewrite Z.land_lor_distr_l, E, Z.lor_0_l. exact E0. Qed.
Lemma ldiff_lor_mask f t m : Z.land t m = t -> Z.ldiff (Z.lor f t) m = Z.ldiff f m.
Proof.
  intros E. rewrite !Z.ldiff_land, Z.land_lor_distr_l. rewrite <- E, <- Z.land_assoc.
  rewrite Z.land_lnot_diag, Z.land_0_r. apply Z.lor_0_r.
Qed.
Lemma land_ldiff_mask f m : Z.land (Z.ldiff f m) m = 0.
Proof. rewrite Z.ldiff_land, <- Z.land_assoc, (Z.land_comm _ m), Z.land_lnot_diag. apply Z.land_0_r. Qed.
Lemma ldiff_ldiff_mask f m : Z.ldiff (Z.ldiff f m) m = Z.ldiff f m.
Proof. rewrite !Z.ldiff_land, <- Z.land_assoc. now rewrite Z.land_diag. Qed.

Definition visited (g : graph) (v : Z) : bool := negb (Z.land (vflags g v) VERTEX_VISITED_MASK =? 0).

Lemma get_visited g v : inV g v = true -> gp_GetVertexVisited g v = Ret (Z.land (vflags g v) VERTEX_VISITED_MASK).
Proof. intros E. unfold gp_GetVertexVisited. now rewrite (rd_vflags_ok _ _ E). Qed.
Lemma visited_set f : Z.land (Z.lor f 1) 1 = 1.
Proof. rewrite Z.land_lor_distr_l. change (Z.land 1 1) with 1.
  assert (H : Z.land f 1 = 0 \/ Z.land f 1 = 1).
  { change 1 with (Z.ones 1). rewrite Z.land_ones by lia. change (2 ^ 1) with 2. pose proof (Z.mod_pos_bound f 2 eq_refl) as Hm. revert Hm. generalize (f mod 2). intros z Hz. assert (z = 0 \/ z = 1) as [-> | ->] by lia; auto. }
  destruct H as [-> | ->]; reflexivity.
Qed.

(** ** Lists of numbers *)
Lemma nodup_range_length (l : list Z) a b : NoDup l -> (forall x, In x l -> a <= x < b) -> Z.of_nat (length l) <= Z.max 0 (b - a).
Proof.
  intros Hn Hr. assert (H : (length l <= length (map (fun n : nat => (a + Z.of_nat n)%Z) (seq 0 (Z.to_nat (b - a)%Z))))%nat).
  { apply NoDup_incl_length; [exact Hn|]. intros x Hx. apply in_map_iff. pose proof (Hr x Hx).
    exists (Z.to_nat (x - a)). split; [lia|]. apply in_seq. lia. }
  rewrite map_length, seq_length in H. lia.
Qed.
Lemma nodup_full (l : list Z) n x : NoDup l -> (forall x, In x l -> 1 <= x <= n) -> Z.of_nat (length l) = n ->
  1 <= x <= n -> In x l.
Proof.
  intros Hn Hr Hl Hx. destruct (in_dec Z.eq_dec x l) as [|Hni]; [auto|exfalso].
  pose proof (nodup_range_length (x :: l) 1 (n + 1)) as H. cbn [length] in H.
  enough (Z.of_nat (S (length l)) <= Z.max 0 (n + 1 - 1)) by lia. apply H.
  - constructor; auto.
  - intros y [<-|Hy]; [lia|]. pose proof (Hr y Hy). lia.
Qed.

(** ** Ancestors *)
Lemma anc_trans p a b c : ancestor p a b -> ancestor p b c -> ancestor p a c.
Proof. intros H. induction 1 as [|v Hv Hb IH]; [exact H|]. now apply anc_step. Qed.
Lemma anc_root p r x : p r = NIL -> ancestor p x r -> x = r.
Proof. intros E H. inversion H; congruence. Qed.
Lemma anc_cmp p r w v : p r = NIL -> ancestor p r v -> ancestor p w v -> ancestor p r w.
Proof.
  intros E H1 H2. induction H2 as [|v Hv H2 IH]; [exact H1|]. apply IH.
  inversion H1 as [|? Hn H3]; subst; [congruence|exact H3].
Qed.
Lemma anc_frame (p p' : Z -> Z) (V : Z -> Prop) a :
  (forall x, V x -> p' x = p x) -> (forall x, V x -> p x <> NIL -> V (p x)) ->
  forall v, V v -> ancestor p a v -> ancestor p' a v.
Proof.
  intros He Hc v Hv H. induction H as [|v Hn H IH]; [constructor|].
  apply anc_step; rewrite He by auto; [auto|]. apply IH. auto.
Qed.
Lemma anc_in p (V : Z -> Prop) a v : (forall x, V x -> p x <> NIL -> V (p x)) -> V v -> ancestor p a v -> V a.
Proof. intros Hc Hv H. revert Hv. induction H; auto. Qed.

(** ** State of the search *)
Definition src (g : graph) (e : Z) : Z := enbr g (twin e).
Definition flat (g : graph) (es : list Z) : list Z := flat_map (fun e => [e; src g e]) es.
Definition ord_ok (ord : list Z) (idx : Z -> Z) : Prop :=
  forall l1 v l2, ord = l1 ++ v :: l2 -> idx v = 1 + Z.of_nat (length l2).

(** One edge: arc [e] from [u] to [w]. *)
Inductive edone (g : graph) (u e w : Z) : Prop :=
| ed_child : etype g e = EDGE_TYPE_CHILD -> etype g (twin e) = EDGE_TYPE_PARENT -> par g w = u -> edone g u e w
| ed_parent : etype g e = EDGE_TYPE_PARENT -> etype g (twin e) = EDGE_TYPE_CHILD -> par g u = w -> edone g u e w
| ed_fwd : etype g e = EDGE_TYPE_FORWARD -> etype g (twin e) = EDGE_TYPE_BACK -> ancestor (par g) u w -> edone g u e w
| ed_back : etype g e = EDGE_TYPE_BACK -> etype g (twin e) = EDGE_TYPE_FORWARD -> ancestor (par g) w u -> edone g u e w.
Inductive estate (g : graph) (es : list Z) (u e w : Z) : Prop :=
| es_new : visited g u = false -> visited g w = false -> etype g e = 0 -> etype g (twin e) = 0 ->
    ~ In e es -> ~ In (twin e) es -> estate g es u e w
| es_out : visited g u = true -> visited g w = false -> etype g e = 0 -> etype g (twin e) = 0 ->
    In e es -> ~ In (twin e) es -> estate g es u e w
| es_in : visited g u = false -> visited g w = true -> etype g e = 0 -> etype g (twin e) = 0 ->
    ~ In e es -> In (twin e) es -> estate g es u e w
| es_fwd : visited g u = true -> visited g w = true -> etype g e = 0 -> etype g (twin e) = 0 ->
    In e es -> ~ In (twin e) es -> ancestor (par g) u w -> estate g es u e w
| es_bwd : visited g u = true -> visited g w = true -> etype g e = 0 -> etype g (twin e) = 0 ->
    ~ In e es -> In (twin e) es -> ancestor (par g) w u -> estate g es u e w
| es_done : visited g u = true -> visited g w = true -> ~ In e es -> ~ In (twin e) es ->
    edone g u e w -> estate g es u e w.

Lemma estate_sym g es u e w : twin (twin e) = e -> estate g es w (twin e) u -> estate g es u e w.
Proof.
  intros E [H1 H2 H3 H4 H5 H6|H1 H2 H3 H4 H5 H6|H1 H2 H3 H4 H5 H6|H1 H2 H3 H4 H5 H6 H7|H1 H2 H3 H4 H5 H6 H7|H1 H2 H3 H4 H5];
    rewrite E in *.
  - now apply es_new. - now apply es_in. - now apply es_out. - now apply es_bwd. - now apply es_fwd.
  - apply es_done; auto. destruct H5 as [A1 A2 A3|A1 A2 A3|A1 A2 A3|A1 A2 A3]; rewrite E in *.
    + now apply ed_parent. + now apply ed_child. + now apply ed_back. + now apply ed_fwd.
Qed.

Record dinv (g0 g : graph) (adj : Z -> list Z) (es ord : list Z) (ta : Z -> Z) (r : Z) : Prop := {
  di_frame : dfs_frame g0 g;
  di_if : giflags g = giflags g0;
  di_es_nodup : NoDup es;
  di_es_arc : forall e, In e es -> In e (adj (src g0 e)) /\ enbr g0 e <> src g0 e /\ visited g (src g0 e) = true;
  di_ord_nodup : NoDup ord;
  di_ord : forall v, In v ord <-> primary g0 v /\ visited g v = true;
  di_idx : ord_ok ord (vindex g);
  di_par_un : forall v, primary g0 v -> visited g v = false -> par g v = NIL;
  di_par : forall v, In v ord -> par g v <> NIL ->
     In (par g v) ord /\ vindex g (par g v) < vindex g v /\
     In (ta v) (adj (par g v)) /\ enbr g0 (ta v) = v /\ etype g (ta v) = EDGE_TYPE_CHILD;
  di_child : forall u e, In e (adj u) -> etype g e = EDGE_TYPE_CHILD -> e = ta (enbr g0 e);
  di_edge : forall u e, In e (adj u) -> enbr g0 e <> u -> estate g es u e (enbr g0 e);
  di_loop : forall u e, In e (adj u) -> enbr g0 e = u -> etype g e = 0;
  di_chain : ForallOrdPairs (fun e e' => ancestor (par g) (src g0 e') (src g0 e)) es;
  di_pre : forall u v d, In u ord -> In v ord -> In d ord -> ancestor (par g) u d ->
     vindex g u <= vindex g v <= vindex g d -> ancestor (par g) u v;
  di_open : forall e u v, In e es -> ancestor (par g) u (src g0 e) -> In v ord ->
     vindex g u <= vindex g v -> ancestor (par g) u v;
  di_rt : forall v, In v ord -> par g v = NIL -> v <= r }.

Lemma ord_idx_range ord idx v : ord_ok ord idx -> In v ord -> 1 <= idx v <= Z.of_nat (length ord).
Proof.
  intros H Hin. apply in_split in Hin. destruct Hin as (l1 & l2 & E). rewrite (H _ _ _ E), E, app_length.
  cbn [length]. lia.
Qed.
Lemma ord_idx_inj ord idx v w : ord_ok ord idx -> In v ord -> In w ord -> idx v = idx w -> v = w.
Proof.
  intros H Hv Hw E. apply in_split in Hv. destruct Hv as (l1 & l2 & E1).
  apply in_split in Hw. destruct Hw as (k1 & k2 & E2).
  rewrite (H _ _ _ E1), (H _ _ _ E2) in E. assert (El : length l2 = length k2) by lia.
  rewrite E1 in E2. clear - E2 El. revert k1 E2. induction l1 as [|a l1 IH]; intros [|b k1] E2; cbn [app] in E2.
  - congruence.
  - injection E2 as -> E2. rewrite E2, app_length in El. cbn [length] in El. lia.
  - injection E2 as -> E2. rewrite <- E2, app_length in El. cbn [length] in El. lia.
  - injection E2 as -> E2. eauto.
Qed.

(** ** Explicit effect of the steps *)
Definition mark_edge (g : graph) (e t t' : Z) : graph :=
  set_eflags g (upd (upd (eflags g) e (Z.lor (eflags g e) t)) (twin e)
                    (Z.lor (upd (eflags g) e (Z.lor (eflags g e) t) (twin e)) t')).
Definition mark_vertex (g : graph) (w DFI up : Z) : graph :=
  set_gVI (set_vindex (set_vflags g (upd (vflags g) w (Z.lor (vflags g w) 1))) (upd (vindex g) w DFI))
          (set_viParent (gVI g) (upd (viParent (gVI g)) w up)).

Lemma mark_edge_ok g e t t' : inE g e = true -> inE g (twin e) = true ->
  (g <- gp_SetEdgeType g e t ;; gp_SetEdgeType g (gp_GetTwinArc e) t') = Ret (mark_edge g e t t').
Proof.
  intros H1 H2. unfold gp_SetEdgeType. rewrite (rd_eflags_ok _ _ H1). cbn [bind]. rewrite (wr_eflags_ok _ _ _ H1). cbn [bind].
  rewrite twin_eq. rewrite rd_eflags_ok by exact H2. cbn [bind]. rewrite wr_eflags_ok by exact H2. reflexivity.
Qed.

Lemma push2_ok g a b : Z.of_nat (length (gstack g)) + 2 <= gstackCap g ->
  stk_push2 g a b = Ret (set_gstack g (b :: a :: gstack g)).
Proof.
  intros H. unfold stk_push2, stk_push. rewrite guard_true by lia. gsimp. cbn [length]. rewrite guard_true by lia. reflexivity.
Qed.


Lemma FOP_app {A} (R : A -> A -> Prop) l1 l2 : ForallOrdPairs R l1 -> ForallOrdPairs R l2 ->
  (forall x y, In x l1 -> In y l2 -> R x y) -> ForallOrdPairs R (l1 ++ l2).
Proof.
  intros H1 H2 H. induction H1 as [|a l Ha H1 IH]; cbn [app]; [exact H2|].
  constructor.
  - apply Forall_forall. intros x Hx. apply in_app_iff in Hx. destruct Hx as [Hx|Hx].
    + rewrite Forall_forall in Ha; auto.
    + apply H; [now left|auto].
  - apply IH. intros; apply H; auto. now right.
Qed.
Lemma FOP_impl {A} (R R' : A -> A -> Prop) l : (forall x y, In x l -> In y l -> R x y -> R' x y) ->
  ForallOrdPairs R l -> ForallOrdPairs R' l.
Proof.
  intros H H1. induction H1 as [|a l Ha H1 IH]; constructor.
  - rewrite Forall_forall in *. intros x Hx. apply H; [now left|now right|auto].
  - apply IH. intros; apply H; auto; now right.
Qed.
Lemma FOP_const {A} (R : A -> A -> Prop) l : (forall x y, In x l -> In y l -> R x y) -> ForallOrdPairs R l.
Proof.
  induction l as [|a l IH]; intros H; constructor.
  - rewrite Forall_forall. intros; apply H; [now left|now right].
  - apply IH. intros; apply H; now right.
Qed.

Section Search.
Variables (g0 : graph) (adj : Z -> list Z).
Hypotheses (R0 : rep g0 adj) (P0 : primary_edges g0 adj).

Lemma arc_twin u e : In e (adj u) -> src g0 e = u /\ In (twin e) (adj (enbr g0 e)) /\ twin (twin e) = e /\ enbr g0 (twin e) = u.
Proof.
  intros H. destruct (rep_twins _ _ R0 _ _ H) as [H1 H2]. repeat split; auto.
  apply twin_twin.
Qed.
Lemma arc_primary u e : In e (adj u) -> primary g0 u /\ primary g0 (enbr g0 e).
Proof.
  intros H. split; [now apply (P0 _ e)|]. destruct (arc_twin _ _ H) as (_ & H2 & _). now apply (P0 _ _ H2).
Qed.
Lemma arc_ne_twin u e : In e (adj u) -> e <> twin e.
Proof. intros _ E. symmetry in E. revert E. apply twin_neq. Qed.

(** *** The edge at the top of the stack leads to a visited vertex. *)
Lemma pop_step g g1 e es ord ta r :
  dinv g0 g adj (e :: es) ord ta r -> visited g (enbr g0 e) = true ->
  dfs_frame g0 g1 -> giflags g1 = giflags g -> vflags g1 = vflags g -> vindex g1 = vindex g -> par g1 = par g ->
  etype g1 e = EDGE_TYPE_FORWARD -> etype g1 (twin e) = EDGE_TYPE_BACK ->
  (forall x, x <> e -> x <> twin e -> etype g1 x = etype g x) ->
  dinv g0 g1 adj es ord ta r.
Proof.
  intros D Hv F Hif Hvf Hix Hpar T1 T2 T3.
  assert (Hvis : forall x, visited g1 x = visited g x) by (intros x; unfold visited; now rewrite Hvf).
  destruct (di_es_arc _ _ _ _ _ _ _ D e (or_introl eq_refl)) as (He & Hnl & Hsv).
  destruct (arc_twin _ _ He) as (_ & He' & Htt & Hnt).
  pose proof (di_edge _ _ _ _ _ _ _ D _ _ He Hnl) as Se.
  assert (Sf : etype g e = 0 /\ etype g (twin e) = 0 /\ ~ In (twin e) (e :: es) /\ ancestor (par g) (src g0 e) (enbr g0 e)).
  { destruct Se as [? ? ? ? A|? ? ? ? A|? ? ? ? A|? ? ? ? A|? ? ? ? A|? ? A]; try congruence; try (exfalso; apply A; now left). repeat split; auto. }
  destruct Sf as (T4 & T5 & Nt & Ha).
  pose proof (proj1 (NoDup_cons_iff _ _) (di_es_nodup _ _ _ _ _ _ _ D)) as [Ne Nes].
  assert (Tk : forall x t, etype g x = t -> t <> 0 -> etype g1 x = t).
  { intros x t Ex Ht. rewrite T3; [auto|intros ->; congruence..]. }
  constructor.
  - exact F.
  - rewrite Hif. apply D.
  - exact Nes.
  - intros x Hx. rewrite Hvis. apply (di_es_arc _ _ _ _ _ _ _ D). now right.
  - apply D.
  - intros v. rewrite Hvis. apply D.
  - rewrite Hix. apply D.
  - intros v. rewrite Hvis, Hpar. apply D.
  - intros v Hin. rewrite Hpar, Hix. intros Hp. destruct (di_par _ _ _ _ _ _ _ D v Hin Hp) as (A1 & A2 & A3 & A4 & A5).
    repeat split; auto. apply Tk; [auto|]. discriminate.
  - intros u x Hx Hc. apply (di_child _ _ _ _ _ _ _ D u); [auto|].
    destruct (Z.eq_dec x e) as [->|N1]; [rewrite T1 in Hc; discriminate|].
    destruct (Z.eq_dec x (twin e)) as [->|N2]; [rewrite T2 in Hc; discriminate|]. now rewrite <- T3.
  - intros u x Hx Hnx. destruct (Z.eq_dec x e) as [->|N1].
    + assert (u = src g0 e) as -> by (symmetry; apply (arc_twin _ _ Hx)).
      apply es_done; rewrite ?Hvis; auto. { intros Hi; apply Nt; now right. }
      apply ed_fwd; auto. now rewrite Hpar.
    + destruct (Z.eq_dec x (twin e)) as [->|N2].
      * assert (u = enbr g0 e) as ->.
        { destruct (arc_twin _ _ Hx) as (A & _). unfold src in A. rewrite Htt in A. auto. }
        rewrite Hnt. fold (src g0 e). apply es_done; rewrite ?Hvis, ?Htt; auto. { intros Hi; apply Nt; now right. }
        apply ed_back; rewrite ?Htt; auto. now rewrite Hpar.
      * pose proof (di_edge _ _ _ _ _ _ _ D u x Hx Hnx) as S.
        assert (N3 : twin x <> e). { intros E. apply N2. rewrite <- E. symmetry. apply twin_twin. }
        assert (N4 : twin x <> twin e). { intros E. apply N1. exact (twin_inj _ _ E). }
        pose proof (T3 x N1 N2) as Tx. pose proof (T3 (twin x) N3 N4) as Tx'.
        destruct S as [A1 A2 A3 A4 A5 A6|A1 A2 A3 A4 A5 A6|A1 A2 A3 A4 A5 A6|A1 A2 A3 A4 A5 A6 A7|A1 A2 A3 A4 A5 A6 A7|A1 A2 A3 A4 A5];
          cbn [In] in *.
        -- apply es_new; rewrite ?Hvis, ?Tx, ?Tx'; auto.
        -- apply es_out; rewrite ?Hvis, ?Tx, ?Tx'; auto. destruct A5; [congruence|auto].
        -- apply es_in; rewrite ?Hvis, ?Tx, ?Tx'; auto. destruct A6; [congruence|auto].
        -- apply es_fwd; rewrite ?Hvis, ?Hpar, ?Tx, ?Tx'; auto. destruct A5; [congruence|auto].
        -- apply es_bwd; rewrite ?Hvis, ?Hpar, ?Tx, ?Tx'; auto. destruct A6; [congruence|auto].
        -- apply es_done; rewrite ?Hvis; auto.
           destruct A5 as [B1 B2 B3|B1 B2 B3|B1 B2 B3|B1 B2 B3];
             [apply ed_child|apply ed_parent|apply ed_fwd|apply ed_back]; rewrite ?Tx, ?Tx', ?Hpar; auto.
  - intros u x Hx Hl. rewrite T3; [now apply (di_loop _ _ _ _ _ _ _ D u)| |].
    + intros ->. apply Hnl. rewrite Hl. symmetry. apply (arc_twin _ _ Hx).
    + intros ->. apply Hnl. destruct (arc_twin _ _ Hx) as (A & _). unfold src in A. rewrite Htt in A.
      unfold src. congruence.
  - rewrite Hpar. pose proof (di_chain _ _ _ _ _ _ _ D) as C. inversion C; auto.
  - intros u v d. rewrite Hix, Hpar. apply D.
  - intros x u v Hx. rewrite Hix, Hpar. apply (di_open _ _ _ _ _ _ _ D x). now right.
  - intros v. rewrite Hpar. apply D.
Qed.

(** *** A new vertex w is visited, through arc e or as a root. *)
Definition newarcs (g1 : graph) (w : Z) : list Z :=
  rev (filter (fun e => negb (visited g1 (enbr g0 e))) (adj w)).
Definition via (g g1 : graph) (es' es : list Z) (w up : Z) (ta ta' : Z -> Z) (r r' : Z) : Prop :=
  (exists e, es' = e :: es /\ up = src g0 e /\ enbr g0 e = w /\ ta' = upd ta w e /\ r' = r /\
     etype g1 e = EDGE_TYPE_CHILD /\ etype g1 (twin e) = EDGE_TYPE_PARENT /\
     (forall x, x <> e -> x <> twin e -> etype g1 x = etype g x)) \/
  (es' = [] /\ es = [] /\ up = NIL /\ ta' = ta /\ r' = w /\ r <= w /\ (forall x, etype g1 x = etype g x)).

Lemma visit_step g g1 es' es ord ta ta' r r' w up :
  dinv g0 g adj es' ord ta r -> via g g1 es' es w up ta ta' r r' ->
  primary g0 w -> visited g w = false ->
  dfs_frame g0 g1 -> giflags g1 = giflags g ->
  (forall x, visited g1 x = (x =? w) || visited g x) ->
  vindex g1 = upd (vindex g) w (1 + Z.of_nat (length ord)) -> par g1 = upd (par g) w up ->
  dinv g0 g1 adj (newarcs g1 w ++ es) (w :: ord) ta' r'.
Proof.
  intros D V Pw Uw F Hif Hvis Hix Hpar.
  assert (Now : ~ In w ord). { intros Hi. apply (di_ord _ _ _ _ _ _ _ D) in Hi. destruct Hi; congruence. }
  assert (Vw : visited g1 w = true) by (rewrite Hvis, Z.eqb_refl; reflexivity).
  assert (Vo : forall x, x <> w -> visited g1 x = visited g x).
  { intros x Hx. rewrite Hvis, (proj2 (Z.eqb_neq x w) Hx). reflexivity. }
  assert (Vt : forall x, visited g x = true -> visited g1 x = true).
  { intros x Hx. rewrite Hvis, Hx. apply orb_true_r. }
  assert (Pclosed : forall x, In x ord -> par g x <> NIL -> In (par g x) ord).
  { intros x Hx Hp. apply (di_par _ _ _ _ _ _ _ D x Hx Hp). }
  assert (Peq : forall x, In x ord -> par g1 x = par g x).
  { intros x Hx. rewrite Hpar. apply upd_other. intros ->; auto. }
  assert (Pw1 : par g1 w = up) by (rewrite Hpar; apply upd_same).
  assert (Ieq : forall x, In x ord -> vindex g1 x = vindex g x).
  { intros x Hx. rewrite Hix. apply upd_other. intros ->; auto. }
  assert (Iw : vindex g1 w = 1 + Z.of_nat (length ord)) by (rewrite Hix; apply upd_same).
  assert (Ilt : forall x, In x ord -> 1 <= vindex g x <= Z.of_nat (length ord)).
  { intros x Hx. apply ord_idx_range; [apply D|auto]. }
  assert (A1 : forall a x, In x ord -> ancestor (par g) a x -> ancestor (par g1) a x).
  { intros a x Hx. apply (anc_frame _ _ (fun x => In x ord)); auto. }
  assert (A2 : forall a x, In x ord -> ancestor (par g1) a x -> ancestor (par g) a x).
  { intros a x Hx. apply (anc_frame _ _ (fun x => In x ord)); auto.
    - intros; symmetry; auto.
    - intros y Hy. rewrite Peq by auto. auto. }
  assert (Ain : forall a x, In x ord -> ancestor (par g) a x -> In a ord).
  { intros a x Hx. apply (anc_in _ (fun x => In x ord)); auto. }
  assert (Hes : forall x, In x es -> In x es').
  { intros x Hx. destruct V as [(e & -> & _)|(-> & -> & _)]; [now right|auto]. }
  assert (Esrc : forall x, In x es' -> In (src g0 x) ord).
  { intros x Hx. destruct (di_es_arc _ _ _ _ _ _ _ D x Hx) as (B1 & B2 & B3).
    apply (di_ord _ _ _ _ _ _ _ D). split; [now apply (P0 _ x)|auto]. }
  assert (Up : up = NIL /\ es' = [] \/ In up ord /\ up <> NIL).
  { destruct V as [(e & -> & -> & _)|(-> & _ & -> & _)]; [right|left; auto].
    pose proof (Esrc e (or_introl eq_refl)) as B. split; [auto|].
    apply (di_ord _ _ _ _ _ _ _ D) in B. destruct B as [[B _] _]. unfold NIL. lia. }
  assert (Aw : forall a, ancestor (par g1) a w -> a = w \/ In up ord /\ ancestor (par g) a up).
  { intros a H. inversion H as [|x Hn Hx E]; [auto|subst x; right].
    rewrite Pw1 in *. destruct Up as [[B _]|[B _]]; [congruence|]. auto. }
  assert (Aw' : forall a, In up ord -> ancestor (par g) a up -> ancestor (par g1) a w).
  { intros a Hu H. apply anc_step; rewrite Pw1; [destruct Up as [[-> E]|[_ B]]|]; auto.
    apply (di_ord _ _ _ _ _ _ _ D) in Hu. destruct Hu as [[B _] _]. unfold NIL in B. lia. }
  assert (Abelow : forall x, In x es -> In up ord /\ ancestor (par g) (src g0 x) up).
  { intros x Hx. destruct V as [(e & E & -> & _)|(_ & -> & _)]; [|destruct Hx].
    split; [apply Esrc; rewrite E; now left|].
    pose proof (di_chain _ _ _ _ _ _ _ D) as C. rewrite E in C. inversion C as [|? ? C1 C2]. subst.
    rewrite Forall_forall in C1. auto. }
  assert (Nin : forall x, In x (newarcs g1 w) <-> In x (adj w) /\ visited g1 (enbr g0 x) = false).
  { intros x. unfold newarcs. rewrite <- in_rev, filter_In, negb_true_iff. reflexivity. }
  assert (Nsrc : forall x, In x (newarcs g1 w) -> src g0 x = w).
  { intros x Hx. apply Nin in Hx. apply (arc_twin w x). tauto. }
  assert (Nes' : NoDup es) by (destruct V as [(e & E & _)|(_ & -> & _)];
    [pose proof (di_es_nodup _ _ _ _ _ _ _ D) as N; rewrite E in N; now apply NoDup_cons_iff in N|constructor]).
  (* facts about the arc used *)
  assert (Ve : forall e, es' = e :: es -> In e (adj (src g0 e)) /\ In (twin e) (adj (enbr g0 e)) /\
     enbr g0 e <> src g0 e /\ visited g (src g0 e) = true /\ ~ In e es /\ twin (twin e) = e /\
     (enbr g0 e = w -> etype g e = 0 /\ etype g (twin e) = 0 /\ ~ In (twin e) es')).
  { intros e E. destruct (di_es_arc _ _ _ _ _ _ _ D e) as (B1 & B2 & B3); [rewrite E; now left|].
    destruct (arc_twin _ _ B1) as (_ & B4 & B5 & _).
    pose proof (di_es_nodup _ _ _ _ _ _ _ D) as N; rewrite E in N. apply NoDup_cons_iff in N.
    repeat split; auto; try tauto; pose proof (di_edge _ _ _ _ _ _ _ D _ _ B1 B2) as S; rewrite H in S;
    destruct S; congruence. }
  assert (Tk : forall x, etype g x <> 0 -> etype g1 x = etype g x).
  { intros x Hx. destruct V as [(e & E & _ & E2 & _ & _ & _ & _ & T)|(_ & _ & _ & _ & _ & _ & T)]; [|auto].
    destruct (Ve e E) as (_ & _ & _ & _ & _ & _ & B). destruct (B E2) as (B1 & B2 & _).
    apply T; intros ->; congruence. }
  assert (Tc : forall u x, In x (adj u) -> etype g x = EDGE_TYPE_CHILD -> enbr g0 x <> w).
  { intros u x Hx Ht E. assert (Hn : enbr g0 x <> u).
    { intros El. rewrite (di_loop _ _ _ _ _ _ _ D u x Hx El) in Ht. discriminate. }
    pose proof (di_edge _ _ _ _ _ _ _ D u x Hx Hn) as S. rewrite E in S.
    destruct S; try congruence; rewrite H1 in Ht; discriminate. }
  constructor.
  - exact F.
  - rewrite Hif. apply D.
  - apply NoDup_app_intro; [|exact Nes'|].
    + unfold newarcs. apply NoDup_rev, NoDup_filter. apply (ch_nodup _ _ (rep_chains _ _ R0)).
    + intros x H1 H2. apply Nsrc in H1. apply Now. rewrite <- H1. auto.
  - intros x Hx. apply in_app_iff in Hx. destruct Hx as [Hx|Hx].
    + pose proof (Nsrc x Hx) as E. apply Nin in Hx. rewrite E. split; [tauto|split; [|auto]].
      intros E2. rewrite E2 in Hx. destruct Hx; congruence.
    + destruct (di_es_arc _ _ _ _ _ _ _ D x (Hes x Hx)) as (B1 & B2 & B3). auto.
  - apply NoDup_cons; [exact Now|apply D].
  - intros v. cbn [In]. rewrite (di_ord _ _ _ _ _ _ _ D v). split.
    + intros [<-|[B1 B2]]; auto.
    + intros [B1 B2]. destruct (Z.eq_dec v w) as [->|N]; [auto|]. right. rewrite Vo in B2; auto.
  - intros l1 v l2 E. destruct l1 as [|a l1]; cbn [app] in E; injection E as E1 E2.
    + subst. exact Iw.
    + rewrite Ieq; [now apply (di_idx _ _ _ _ _ _ _ D l1)|]. rewrite E2. apply in_app_iff. right. now left.
  - intros v Pv Uv. destruct (Z.eq_dec v w) as [->|N]; [congruence|].
    rewrite Hpar, upd_other by auto. rewrite Vo in Uv by auto. now apply D.
  - intros v [<-|Hv] Hp.
    + rewrite Pw1 in *. destruct Up as [[B _]|[B _]]; [congruence|].
      rewrite Iw, (Ieq up B). pose proof (Ilt up B).
      destruct V as [(e & E & -> & E2 & -> & _ & T1 & _)|(_ & _ & E & _)]; [|congruence].
      rewrite upd_same. destruct (Ve e E) as (B1 & _). repeat split; auto; [now right|lia].
    + assert (Nv : v <> w) by (intros ->; auto). rewrite Peq in * by auto.
      destruct (di_par _ _ _ _ _ _ _ D v Hv Hp) as (B1 & B2 & B3 & B4 & B5).
      assert (Et : ta' v = ta v).
      { destruct V as [(e & _ & _ & _ & -> & _)|(_ & _ & _ & -> & _)]; [now apply upd_other|auto]. }
      rewrite Et, !Ieq by auto. repeat split; auto; [now right|]. rewrite Tk; [auto|]. rewrite B5. discriminate.
  - intros u x Hx Ht. destruct V as [(e & E & E1 & E2 & -> & _ & T1 & T2 & T)|(_ & _ & _ & -> & _ & _ & T)].
    + destruct (Z.eq_dec x e) as [->|N1]; [rewrite E2; now rewrite upd_same|].
      destruct (Z.eq_dec x (twin e)) as [->|N2]; [rewrite T2 in Ht; discriminate|].
      rewrite T in Ht by auto. rewrite upd_other by (apply (Tc u); auto). now apply (di_child _ _ _ _ _ _ _ D u).
    + rewrite T in Ht. now apply (di_child _ _ _ _ _ _ _ D u).
  - (* edge states *)
    assert (Base : forall u x, In x (adj u) -> enbr g0 x <> u ->
       (forall e, es' = e :: es -> x <> e /\ x <> twin e) ->
       etype g1 x = etype g x /\ etype g1 (twin x) = etype g (twin x) /\ (In x es' <-> In x es) /\ (In (twin x) es' <-> In (twin x) es)).
    { intros u x Hx Hn Hne. destruct V as [(e & E & E1 & E2 & _ & _ & T1 & T2 & T)|(E1 & E2 & _ & _ & _ & _ & T)].
      - destruct (Hne e E) as [N1 N2].
        assert (N3 : twin x <> e). { intros E'. apply N2. rewrite <- E'. symmetry. apply twin_twin. }
        assert (N4 : twin x <> twin e). { intros E'. apply N1. exact (twin_inj _ _ E'). }
        rewrite E. cbn [In]. repeat split; auto; try tauto; intros [B|B]; congruence || auto.
      - rewrite E1, E2, !T. tauto. }
    assert (Hnew : forall u x, In x (adj u) -> enbr g0 x <> u -> visited g1 u = true -> visited g1 (enbr g0 x) = false ->
      ~ In (twin x) (newarcs g1 w)).
    { intros u x Hx Hn Hu1 Hu2 Hi. apply Nin in Hi. destruct (arc_twin _ _ Hx) as (_ & _ & _ & E). rewrite E in Hi. destruct Hi; congruence. }
    assert (Hnn : forall u x, In x (adj u) -> visited g1 (enbr g0 x) = true -> ~ In x (newarcs g1 w)).
    { intros u x Hx Hv Hi. apply Nin in Hi. destruct Hi; congruence. }
    assert (Hnn' : forall u x, In x (adj u) -> u <> w -> ~ In x (newarcs g1 w)).
    { intros u x Hx Hv Hi. apply Nsrc in Hi. destruct (arc_twin _ _ Hx) as (E & _). congruence. }
    assert (Hout : forall u x, In x (adj u) -> enbr g0 x <> u ->
       (forall e, es' = e :: es -> x <> e /\ x <> twin e) ->
       visited g u = true -> visited g (enbr g0 x) = false -> etype g x = 0 -> etype g (twin x) = 0 ->
       In x es' -> ~ In (twin x) es' -> estate g1 (newarcs g1 w ++ es) u x (enbr g0 x)).
    { intros u x Hx Hn Hne B1 B2 B3 B4 B5 B6. destruct (Base u x Hx Hn Hne) as (T1 & T2 & T3 & T4).
      rewrite T3 in B5. rewrite T4 in B6. rewrite <- T1 in B3. rewrite <- T2 in B4.
      destruct (arc_twin _ _ Hx) as (Ex & Ht & Htt & Hnt).
      destruct (Z.eq_dec (enbr g0 x) w) as [E|N].
      - apply es_fwd; auto; rewrite ?in_app_iff.
        + now rewrite E.
        + auto.
        + intros [Hi|Hi]; [|auto]. revert Hi. apply (Hnn (enbr g0 x)); [auto|]. rewrite Hnt. auto.
        + rewrite E. destruct (Abelow x B5) as [C1 C2]. apply Aw'; [auto|]. now rewrite <- Ex.
      - apply es_out; auto; rewrite ?in_app_iff.
        + now rewrite Vo.
        + auto.
        + intros [Hi|Hi]; [|auto]. revert Hi. apply (Hnn (enbr g0 x)); [auto|]. rewrite Hnt. auto. }
    assert (Hgo : forall u x, In x (adj u) -> enbr g0 x <> u ->
       (forall e, es' = e :: es -> x <> e /\ x <> twin e) -> estate g1 (newarcs g1 w ++ es) u x (enbr g0 x)).
    { intros u x Hx Hn Hne. destruct (Base u x Hx Hn Hne) as (T1 & T2 & T3 & T4).
      destruct (arc_twin _ _ Hx) as (Ex & Ht & Htt & Hnt). destruct (arc_primary _ _ Hx) as [Pu Pn].
      assert (Hne' : forall e, es' = e :: es -> twin x <> e /\ twin x <> twin e).
      { intros e E. destruct (Hne e E) as [N1 N2]. split; intros E'.
        - apply N2. rewrite <- E'. symmetry. exact Htt.
        - apply N1. exact (twin_inj _ _ E'). }
      destruct (di_edge _ _ _ _ _ _ _ D u x Hx Hn) as [B1 B2 B3 B4 B5 B6|B1 B2 B3 B4 B5 B6|B1 B2 B3 B4 B5 B6|B1 B2 B3 B4 B5 B6 B7|B1 B2 B3 B4 B5 B6 B7|B1 B2 B3 B4 B5].
      - destruct (Z.eq_dec u w) as [E|Nu].
        + rewrite T3 in B5. rewrite T4 in B6. rewrite <- T1 in B3. rewrite <- T2 in B4.
          assert (U1 : visited g1 (enbr g0 x) = false) by (rewrite Vo; congruence).
          apply es_out; auto; rewrite ?in_app_iff.
          * now rewrite E.
          * left. apply Nin. rewrite <- E. auto.
          * intros [Hi|Hi]; [|auto]. revert Hi. apply (Hnn (enbr g0 x)); [auto|]. now rewrite Hnt, E.
        + rewrite T3 in B5. rewrite T4 in B6. rewrite <- T1 in B3. rewrite <- T2 in B4.
          destruct (Z.eq_dec (enbr g0 x) w) as [E|Nx].
          * apply es_in; auto; rewrite ?in_app_iff.
            -- now rewrite Vo.
            -- now rewrite E.
            -- intros [Hi|Hi]; [|auto]. revert Hi. apply (Hnn u); [auto|]. now rewrite E.
            -- left. apply Nin. rewrite <- E. split; [auto|]. rewrite Hnt, Vo; auto.
          * apply es_new; auto; rewrite ?in_app_iff, ?Vo; auto.
            -- intros [Hi|Hi]; [|auto]. revert Hi. now apply (Hnn' u).
            -- intros [Hi|Hi]; [|auto]. revert Hi. now apply (Hnn' (enbr g0 x)).
      - now apply Hout.
      - apply estate_sym; [exact Htt|]. pose proof (Hout (enbr g0 x) (twin x)) as Q. rewrite Hnt, Htt in Q. apply Q; auto.
      - rewrite T3 in B5. rewrite T4 in B6. rewrite <- T1 in B3. rewrite <- T2 in B4.
        apply es_fwd; auto; rewrite ?in_app_iff; auto.
        + intros [Hi|Hi]; [|auto]. revert Hi. apply (Hnn (enbr g0 x)); [auto|]. rewrite Hnt. auto.
        + apply A1; [|auto]. apply (di_ord _ _ _ _ _ _ _ D). auto.
      - rewrite T3 in B5. rewrite T4 in B6. rewrite <- T1 in B3. rewrite <- T2 in B4.
        apply es_bwd; auto; rewrite ?in_app_iff; auto.
        + intros [Hi|Hi]; [|auto]. revert Hi. apply (Hnn u); auto.
        + apply A1; [|auto]. apply (di_ord _ _ _ _ _ _ _ D). auto.
      - rewrite T3 in B3. rewrite T4 in B4.
        assert (O1 : In u ord) by (apply (di_ord _ _ _ _ _ _ _ D); auto).
        assert (O2 : In (enbr g0 x) ord) by (apply (di_ord _ _ _ _ _ _ _ D); auto).
        apply es_done; auto; rewrite ?in_app_iff; auto.
        + intros [Hi|Hi]; [|auto]. revert Hi. apply (Hnn u); auto.
        + intros [Hi|Hi]; [|auto]. revert Hi. apply (Hnn (enbr g0 x)); [auto|]. rewrite Hnt. auto.
        + destruct B5 as [C1 C2 C3|C1 C2 C3|C1 C2 C3|C1 C2 C3];
             [apply ed_child|apply ed_parent|apply ed_fwd|apply ed_back]; rewrite ?T1, ?T2, ?Peq; auto. }
    intros u x Hx Hn. destruct V as [(e & E & E1 & E2 & _ & _ & T1 & T2 & T)|V'].
    + destruct (Ve e E) as (B1 & B2 & B3 & B4 & B5 & B6 & B7). destruct (B7 E2) as (B8 & B9 & B10).
      rewrite E in B10. cbn [In] in B10.
      assert (Se : estate g1 (newarcs g1 w ++ es) (src g0 e) e (enbr g0 e)).
      { apply es_done; auto.
        - now rewrite E2.
        - rewrite in_app_iff. intros [Hi|Hi]; [|auto]. revert Hi. apply (Hnn (src g0 e)); [auto|]. now rewrite E2.
        - rewrite in_app_iff. intros [Hi|Hi]; [|auto]. revert Hi. apply (Hnn (enbr g0 e)); [auto|]. fold (src g0 e). auto.
        - apply ed_child; auto. rewrite E2, Pw1. auto. }
      destruct (Z.eq_dec x e) as [->|N1].
      * destruct (arc_twin _ _ Hx) as (Ex & _). rewrite <- Ex. exact Se.
      * destruct (Z.eq_dec x (twin e)) as [->|N2].
        -- apply estate_sym; [now rewrite B6|]. rewrite B6. fold (src g0 e).
           destruct (arc_twin _ _ Hx) as (Ex & _). unfold src in Ex at 1. rewrite B6 in Ex. rewrite <- Ex. exact Se.
        -- apply Hgo; auto. intros e' E'. assert (e' = e) as -> by congruence. auto.
    + apply Hgo; auto. intros e E. destruct V' as [E' _]. congruence.
  - intros u x Hx Hl. assert (Et := di_loop _ _ _ _ _ _ _ D u x Hx Hl).
    destruct V as [(e & E & E1 & E2 & _ & _ & T1 & T2 & T)|(_ & _ & _ & _ & _ & _ & T)]; [|now rewrite T].
    destruct (Ve e E) as (B1 & B2 & B3 & _ & _ & B6 & _). destruct (arc_twin _ _ Hx) as (Ex & _).
    rewrite T; [auto|intros ->; congruence|intros ->]. apply B3. unfold src in Ex. rewrite B6 in Ex. unfold src. congruence.
  - apply FOP_app.
    + apply FOP_const. intros x y Hx Hy. rewrite (Nsrc _ Hx), (Nsrc _ Hy). constructor.
    + assert (C : ForallOrdPairs (fun e e' => ancestor (par g) (src g0 e') (src g0 e)) es).
      { pose proof (di_chain _ _ _ _ _ _ _ D) as C. destruct V as [(e & E & _)|(_ & -> & _)]; [|constructor].
        rewrite E in C. now inversion C. }
      revert C. apply FOP_impl. intros x y Hx Hy. apply A1. auto.
    + intros x y Hx Hy. rewrite (Nsrc _ Hx). destruct (Abelow y Hy) as [C1 C2]. auto.
  - intros u v d Hu Hv Hd Ha Hi. destruct Hd as [<-|Hd].
    + destruct (Aw u Ha) as [->|[C1 C2]].
      * destruct Hv as [<-|Hv]; [constructor|]. rewrite Iw, (Ieq v Hv) in Hi. pose proof (Ilt v Hv). lia.
      * assert (Ou : In u ord) by (apply (Ain u up); auto).
        destruct Hv as [<-|Hv]; [auto|]. apply A1; [auto|].
        destruct V as [(e & E & -> & _)|(_ & _ & -> & _)].
        -- apply (di_open _ _ _ _ _ _ _ D e); auto. { rewrite E; now left. } rewrite <- !Ieq by auto. lia.
        -- apply (di_ord _ _ _ _ _ _ _ D) in C1. destruct C1 as [[C1 _] _]. unfold NIL in C1; lia.
    + assert (Ha' := A2 _ _ Hd Ha). assert (Ou : In u ord) by (apply (Ain u d); auto).
      pose proof (Ilt d Hd). rewrite (Ieq d Hd) in Hi. destruct Hv as [<-|Hv]; [rewrite Iw in Hi; lia|].
      apply A1; [auto|]. apply (di_pre _ _ _ _ _ _ _ D u v d); auto. rewrite <- (Ieq u), <- (Ieq v); auto.
  - intros x u v Hx Ha Hv Hi. apply in_app_iff in Hx. destruct Hx as [Hx|Hx].
    + rewrite (Nsrc _ Hx) in Ha. destruct (Aw u Ha) as [->|[C1 C2]].
      * destruct Hv as [<-|Hv]; [constructor|]. rewrite Iw, (Ieq v Hv) in Hi. pose proof (Ilt v Hv). lia.
      * assert (Ou : In u ord) by (apply (Ain u up); auto).
        destruct Hv as [<-|Hv]; [auto|]. apply A1; [auto|].
        destruct V as [(e & E & -> & _)|(_ & _ & -> & _)].
        -- apply (di_open _ _ _ _ _ _ _ D e); auto. { rewrite E; now left. } rewrite <- !Ieq by auto. lia.
        -- apply (di_ord _ _ _ _ _ _ _ D) in C1. destruct C1 as [[C1 _] _]. unfold NIL in C1; lia.
    + assert (Os : In (src g0 x) ord) by auto. assert (Ha' := A2 _ _ Os Ha).
      assert (Ou : In u ord) by (apply (Ain u (src g0 x)); auto).
      destruct Hv as [<-|Hv].
      * destruct (Abelow x Hx) as [C1 C2]. apply Aw'; [auto|]. now apply anc_trans with (src g0 x).
      * apply A1; [auto|]. apply (di_open _ _ _ _ _ _ _ D x); auto. rewrite <- !Ieq by auto. lia.
  - intros v [<-|Hv] Hp.
    + destruct V as [(e & E & E1 & _)|(_ & _ & _ & _ & -> & _)]; [|lia].
      rewrite Pw1 in Hp. destruct Up as [[_ B]|[_ B]]; congruence.
    + rewrite Peq in Hp by auto. pose proof (di_rt _ _ _ _ _ _ _ D v Hv Hp).
      destruct V as [(e & _ & _ & _ & _ & -> & _)|(_ & _ & _ & _ & -> & ? & _)]; lia.
Qed.

(** *** The push loop *)
Lemma flat_app es es' : flat g0 (es ++ es') = flat g0 es ++ flat g0 es'.
Proof. apply flat_map_app. Qed.
Lemma flat_length es : length (flat g0 es) = (2 * length es)%nat.
Proof. induction es as [|e es IH]; [reflexivity|]. change (flat g0 (e :: es)) with (e :: src g0 e :: flat g0 es).
  cbn [length]. lia. Qed.
Lemma arc_inE g v e : gCap g = gCap g0 -> In e (adj v) -> inE g e = true.
Proof.
  intros E H. pose proof (ch_range _ _ (rep_chains _ _ R0) _ _ H). unfold inE, gp_EdgeIndexBound in *.
  rewrite E. lia.
Qed.
Lemma prim_inV g v : gN g = gN g0 -> primary g0 v -> inV g v = true /\ inVI g v = true.
Proof.
  intros E [H1 H2]. unfold inV, inVI, gp_VertexIndexBound, gp_PrimaryVertexIndexBound. rewrite E. lia.
Qed.

Lemma push_loop_ok u : forall l done n g, dfs_frame g0 g -> adj u = done ++ l ->
  (length l < n)%nat ->
  Z.of_nat (length (gstack g)) + 2 * Z.of_nat (length (filter (fun e => negb (visited g (enbr g0 e))) l)) <= gstackCap g ->
  dfs_push_loop n g u (hd NIL l) =
    Ret (set_gstack g (flat g0 (rev (filter (fun e => negb (visited g (enbr g0 e))) l)) ++ gstack g)).
Proof.
  induction l as [|e l IH]; intros done n g F E Hn Hc; destruct n as [|n]; cbn [length] in Hn; try lia.
  - cbn [dfs_push_loop hd]. rewrite Z.eqb_refl. cbn. f_equal. destruct g; reflexivity.
  - cbn [dfs_push_loop hd].
    assert (Hi : In e (adj u)) by (rewrite E; apply in_app_iff; right; now left).
    rewrite (eqb_false_neq e NIL) by (apply (ch_nonnil _ _ _ _ (rep_chains _ _ R0) Hi)).
    assert (He : inE g e = true) by (apply (arc_inE _ u); [apply F|auto]).
    rewrite (get_nbr _ _ He). cbn [bind]. rewrite (dff_enbr _ _ F).
    destruct (prim_inV g (enbr g0 e)) as [Hv _]; [apply F|now apply (arc_primary u)|].
    rewrite (get_visited _ _ Hv). cbn [bind].
    assert (Enx : enext g e = hd NIL l).
    { rewrite (dff_enext _ _ F). apply (chains_links _ _ _ _ _ _ (rep_chains _ _ R0) E). }
    cbn [filter] in *.
    assert (Hz : (Z.land (vflags g (enbr g0 e)) VERTEX_VISITED_MASK =? 0) = negb (visited g (enbr g0 e)))
      by (unfold visited; now rewrite negb_involutive).
    rewrite Hz. destruct (negb (visited g (enbr g0 e))) eqn:Ev.
    + cbn [length] in Hc. rewrite push2_ok by lia. cbn [bind].
      rewrite get_next by exact He. cbn [bind]. gsimp. rewrite Enx.
      rewrite (IH (done ++ [e])); [|destruct F; constructor; auto|now rewrite <- app_assoc|lia|].
      2:{ gsimp. cbn [length].
          change (visited (set_gstack g (e :: u :: gstack g))) with (visited g). lia. }
      change (visited (set_gstack g (e :: u :: gstack g))) with (visited g).
      gsimp. f_equal. cbn [rev]. rewrite flat_app, <- app_assoc.
      destruct (arc_twin _ _ Hi) as (Es & _). cbn [flat flat_map app]. rewrite Es. reflexivity.
    + cbn [bind]. rewrite get_next by exact He. cbn [bind]. rewrite Enx.
      apply (IH (done ++ [e])); [auto|now rewrite <- app_assoc|lia|]. lia.
Qed.

Lemma dinv_len g es ord ta r : dinv g0 g adj es ord ta r ->
  Z.of_nat (length es) <= Z.max 0 (gCap g0) /\ Z.of_nat (length ord) <= gN g0.
Proof.
  intros D. split.
  - pose proof (nodup_range_length es 2 (gp_EdgeIndexBound g0) (di_es_nodup _ _ _ _ _ _ _ D)) as H.
    unfold gp_EdgeIndexBound in *. replace (2 + gCap g0 - 2) with (gCap g0) in H by lia. apply H.
    intros x Hx. destruct (di_es_arc _ _ _ _ _ _ _ D x Hx) as (B & _).
    apply (ch_range _ _ (rep_chains _ _ R0) _ _ B).
  - pose proof (nodup_range_length ord 1 (gN g0 + 1) (di_ord_nodup _ _ _ _ _ _ _ D)) as H.
    pose proof (st_N _ _ (rep_storage _ _ R0)).
    enough (Z.of_nat (length ord) <= Z.max 0 (gN g0 + 1 - 1)) by lia. apply H.
    intros x Hx. apply (di_ord _ _ _ _ _ _ _ D) in Hx. destruct Hx as [[] _]. lia.
Qed.

Definition visit_code (g : graph) (u uparent e DFI : Z) : res graph :=
  g <- gp_SetVertexVisited g u ;;
  g <- gp_SetVertexIndex g u DFI ;;
  g <- gp_SetVertexParent g u uparent ;;
  g <- (if negb (e =? NIL) then
          g <- gp_SetEdgeType g e EDGE_TYPE_CHILD ;;
          gp_SetEdgeType g (gp_GetTwinArc e) EDGE_TYPE_PARENT
        else Ret g) ;;
  e0 <- gp_GetFirstArc g u ;;
  dfs_push_loop (efuel g) g u e0.

Lemma mark_vertex_ok g w DFI up : inV g w = true -> inVI g w = true ->
  (g <- gp_SetVertexVisited g w ;; g <- gp_SetVertexIndex g w DFI ;; gp_SetVertexParent g w up) =
  Ret (mark_vertex g w DFI up).
Proof.
  intros H1 H2. unfold gp_SetVertexVisited. rewrite (rd_vflags_ok _ _ H1). cbn [bind].
  rewrite wr_vflags_ok by exact H1. cbn [bind]. unfold gp_SetVertexIndex. rewrite guard_true by exact H1. cbn [bind].
  unfold gp_SetVertexParent. rewrite guard_true by exact H2. reflexivity.
Qed.

Lemma visited_mark g w DFI up x : visited (mark_vertex g w DFI up) x = (x =? w) || visited g x.
Proof.
  unfold visited, mark_vertex. gsimp. unfold upd. destruct (x =? w) eqn:E; [|reflexivity].
  unfold VERTEX_VISITED_MASK. rewrite visited_set. reflexivity.
Qed.
Lemma etype_mark g e t t' x : Z.land t EDGE_TYPE_MASK = t -> Z.land t' EDGE_TYPE_MASK = t' ->
  etype g e = 0 -> etype g (twin e) = 0 ->
  etype (mark_edge g e t t') x = if x =? twin e then t' else if x =? e then t else etype g x.
Proof.
  intros H1 H2 H3 H4. unfold etype, mark_edge. gsimp. unfold upd.
  destruct (x =? twin e) eqn:E1.
  - rewrite (eqb_false_neq (twin e) e) by (apply twin_neq). now apply land_lor_mask.
  - destruct (x =? e) eqn:E2; [|reflexivity]. now apply land_lor_mask.
Qed.
Lemma frame_mark_edge g e t t' : dfs_frame g0 g -> Z.land t EDGE_TYPE_MASK = t -> Z.land t' EDGE_TYPE_MASK = t' ->
  dfs_frame g0 (mark_edge g e t t').
Proof.
  intros F H1 H2. destruct F. constructor; auto. intros x. unfold mark_edge. gsimp. rewrite <- dff_eflags.
  unfold upd. destruct (x =? twin e) eqn:E1.
  - apply Z.eqb_eq in E1. subst x. rewrite (eqb_false_neq (twin e) e) by (apply twin_neq). now rewrite ldiff_lor_mask.
  - destruct (x =? e) eqn:E2; [|reflexivity]. apply Z.eqb_eq in E2. subst x. now rewrite ldiff_lor_mask.
Qed.
Lemma frame_mark_vertex g w DFI up : primary g0 w -> dfs_frame g0 g -> dfs_frame g0 (mark_vertex g w DFI up).
Proof.
  intros Pw F. destruct F. constructor; auto.
  - intros x Hx. destruct (dff_virtual x Hx) as (E1 & E2 & E3). unfold par, mark_vertex in *. gsimp.
    rewrite !upd_other by congruence. auto.
  - intros x. unfold mark_vertex. gsimp. rewrite <- dff_vflags. unfold upd. destruct (x =? w) eqn:E; [|reflexivity].
    apply Z.eqb_eq in E. subst x. now rewrite ldiff_lor_mask.
  - destruct dff_VI as [f E]. exists (upd (viParent (gVI g)) w up). unfold mark_vertex. gsimp. rewrite E. reflexivity.
Qed.
Lemma frame_stack g s : dfs_frame g0 g -> dfs_frame g0 (set_gstack g s).
Proof. intros F. destruct F. constructor; auto. Qed.

Hypothesis Room : 2 * gCap g0 <= gstackCap g0.
Hypothesis Cap0 : 0 <= gCap g0.
Hypothesis Room2 : 2 <= gstackCap g0.

Lemma visit_code_ok g es' es ord ta r w up e :
  dinv g0 g adj es' ord ta r -> primary g0 w -> visited g w = false ->
  (es' = e :: es /\ up = src g0 e /\ enbr g0 e = w) \/ (es' = [] /\ es = [] /\ up = NIL /\ e = NIL /\ r <= w) ->
  exists g1, visit_code (set_gstack g (flat g0 es)) w up e (1 + Z.of_nat (length ord)) = Ret g1 /\
    dinv g0 g1 adj (newarcs g1 w ++ es) (w :: ord) (if e =? NIL then ta else upd ta w e) (if e =? NIL then w else r) /\
    gstack g1 = flat g0 (newarcs g1 w ++ es).
Proof.
  intros D Pw Uw V. set (DFI := 1 + Z.of_nat (length ord)).
  pose proof (di_frame _ _ _ _ _ _ _ D) as F.
  set (ga := mark_vertex (set_gstack g (flat g0 es)) w DFI up).
  set (gb := if e =? NIL then ga else mark_edge ga e EDGE_TYPE_CHILD EDGE_TYPE_PARENT).
  set (g1 := set_gstack gb (flat g0 (newarcs gb w) ++ flat g0 es)).
  assert (Fa : dfs_frame g0 ga) by (apply frame_mark_vertex; [|apply frame_stack]; auto).
  assert (Fb : dfs_frame g0 gb).
  { unfold gb. destruct (e =? NIL); [auto|]. apply frame_mark_edge; auto. }
  assert (Ne : forall e', es' = e' :: es -> e' <> NIL).
  { intros e' E. destruct (di_es_arc _ _ _ _ _ _ _ D e') as (B & _); [rewrite E; now left|].
    apply (ch_nonnil _ _ _ _ (rep_chains _ _ R0) B). }
  assert (Hnew : newarcs g1 w = newarcs gb w) by reflexivity.
  assert (Vg : forall x, visited gb x = visited ga x) by (intros x; unfold gb; destruct (e =? NIL); reflexivity).
  assert (D1 : dinv g0 g1 adj (newarcs g1 w ++ es) (w :: ord) (if e =? NIL then ta else upd ta w e) (if e =? NIL then w else r)).
  { apply (visit_step g g1 es' es ord ta _ r _ w up D); auto.
    - destruct V as [(E & E1 & E2)|(E & E1 & E2 & E3 & E4)].
      + left. exists e. unfold g1, gb. rewrite (eqb_false_neq e NIL) by auto.
        destruct (di_es_arc _ _ _ _ _ _ _ D e) as (B1 & B2 & B3); [rewrite E; now left|].
        pose proof (di_edge _ _ _ _ _ _ _ D _ _ B1 B2) as S. rewrite E2 in S.
        assert (T : etype ga e = 0 /\ etype ga (twin e) = 0) by (destruct S; try congruence; auto).
        destruct T as [T1 T2].
        assert (Te := fun x => etype_mark ga e EDGE_TYPE_CHILD EDGE_TYPE_PARENT x eq_refl eq_refl T1 T2).
        do 5 (split; [auto|]). split; [|split].
        * etransitivity; [apply Te|]. rewrite (eqb_false_neq e (twin e)) by (apply not_eq_sym, twin_neq).
          now rewrite Z.eqb_refl.
        * etransitivity; [apply Te|]. now rewrite Z.eqb_refl.
        * intros x N1 N2. etransitivity; [apply Te|].
          now rewrite (eqb_false_neq x (twin e)), (eqb_false_neq x e) by auto.
      + right. unfold g1, gb. subst e. rewrite Z.eqb_refl. do 6 (split; [auto|]). reflexivity.
    - now apply frame_stack.
    - unfold g1, gb. destruct (e =? NIL); reflexivity.
    - intros x. change (visited g1 x) with (visited gb x). rewrite Vg. apply (visited_mark (set_gstack g (flat g0 es))).
    - unfold g1, gb. destruct (e =? NIL); reflexivity.
    - unfold g1, gb. destruct (e =? NIL); reflexivity. }
  exists g1. split; [|split; [exact D1|]].
  2:{ unfold g1 at 1. gsimp. rewrite Hnew. now rewrite flat_app. }
  unfold visit_code.
  destruct (prim_inV (set_gstack g (flat g0 es)) w) as [Iv Ii]; [apply F|auto|].
  pose proof (mark_vertex_ok (set_gstack g (flat g0 es)) w DFI up Iv Ii) as E1. fold ga in E1.
  destruct (gp_SetVertexVisited (set_gstack g (flat g0 es)) w) as [h1| |]; cbn [bind] in *; try discriminate.
  destruct (gp_SetVertexIndex h1 w DFI) as [h2| |]; cbn [bind] in *; try discriminate.
  rewrite E1. cbn [bind].
  assert (E2 : (if negb (e =? NIL) then g2 <- gp_SetEdgeType ga e EDGE_TYPE_CHILD ;; gp_SetEdgeType g2 (gp_GetTwinArc e) EDGE_TYPE_PARENT else Ret ga) = Ret gb).
  { unfold gb. destruct (e =? NIL) eqn:En; cbn [negb]; [reflexivity|]. apply Z.eqb_neq in En.
    destruct V as [(E & Eu & Ew)|(_ & _ & _ & E & _)]; [|congruence].
    destruct (di_es_arc _ _ _ _ _ _ _ D e) as (B1 & B2 & B3); [rewrite E; now left|].
    destruct (arc_twin _ _ B1) as (_ & B4 & _).
    apply mark_edge_ok; [apply (arc_inE _ (src g0 e))|apply (arc_inE _ (enbr g0 e))]; auto; apply Fa. }
  rewrite E2. cbn [bind].
  destruct (prim_inV gb w) as [Iv' _]; [apply Fb|auto|].
  rewrite (get_first _ _ Iv'). cbn [bind]. rewrite (dff_vfirst _ _ Fb).
  assert (Isv : is_vertex g0 w) by (destruct Pw; unfold is_vertex; lia).
  rewrite (ch_first _ _ (rep_chains _ _ R0) w Isv).
  assert (Ef : efuel gb = efuel g0) by (unfold efuel, gp_EdgeIndexBound; now rewrite (dff_cap _ _ Fb)).
  assert (Est : gstack gb = flat g0 es) by (unfold gb; destruct (e =? NIL); reflexivity).
  destruct (dinv_len _ _ _ _ _ D1) as [Hlen _].
  rewrite (push_loop_ok w (adj w) []); [|auto|auto| |].
  - rewrite Est. reflexivity.
  - rewrite Ef. apply (adj_len g0 adj w). apply R0.
  - rewrite Est, (dff_stackCap _ _ Fb). rewrite Hnew, app_length in Hlen. unfold newarcs in Hlen.
    rewrite rev_length in Hlen. rewrite flat_length. lia.
Qed.

(** *** The tree loop *)
Definition dmeas (es ord : list Z) : Z := (gN g0 - Z.of_nat (length ord)) * (gCap g0 + 3) + Z.of_nat (length es).

Lemma tree_loop_unfold n g DFI v : dfs_tree_loop (S n) g DFI v =
    if stk_empty g then Ret (g, DFI)
    else
      '(g, uparent, e) <- stk_pop2 g ;;
      u <- (if uparent =? NIL then Ret v else gp_GetNeighbor g e) ;;
      vis <- gp_GetVertexVisited g u ;;
      if vis =? 0 then
        g <- visit_code g u uparent e DFI ;;
        dfs_tree_loop n g (DFI + 1) v
      else
        g <- gp_SetEdgeType g e EDGE_TYPE_FORWARD ;;
        g <- gp_SetEdgeType g (gp_GetTwinArc e) EDGE_TYPE_BACK ;;
        dfs_tree_loop n g DFI v.
Proof.
  cbn [dfs_tree_loop]. destruct (stk_empty g); [reflexivity|].
  destruct (stk_pop2 g) as [[[g1 up] e]| |]; cbn [bind]; try reflexivity.
  destruct (if up =? NIL then Ret v else gp_GetNeighbor g1 e) as [u| |]; cbn [bind]; try reflexivity.
  destruct (gp_GetVertexVisited g1 u) as [vis| |]; cbn [bind]; try reflexivity.
  destruct (vis =? 0); [|reflexivity]. unfold visit_code.
  destruct (gp_SetVertexVisited g1 u) as [h1| |]; cbn [bind]; try reflexivity.
  destruct (gp_SetVertexIndex h1 u DFI) as [h2| |]; cbn [bind]; try reflexivity.
  destruct (gp_SetVertexParent h2 u up) as [h3| |]; cbn [bind]; try reflexivity.
  destruct (if negb (e =? NIL) then g2 <- gp_SetEdgeType h3 e EDGE_TYPE_CHILD ;; gp_SetEdgeType g2 (gp_GetTwinArc e) EDGE_TYPE_PARENT else Ret h3) as [h4| |]; cbn [bind]; try reflexivity.
  destruct (gp_GetFirstArc h4 u) as [h5| |]; cbn [bind]; reflexivity.
Qed.

Lemma pop2_ok g a b s : gstack g = b :: a :: s -> stk_pop2 g = Ret (set_gstack g s, a, b).
Proof. intros E. unfold stk_pop2, stk_pop. rewrite E. cbn [bind]. gsimp. reflexivity. Qed.

Definition tree_post (r : Z) (ord : list Z) (p : graph * Z) : Prop :=
  exists ord' ta', dinv g0 (fst p) adj [] ord' ta' r /\ gstack (fst p) = [] /\
    snd p = 1 + Z.of_nat (length ord') /\ incl ord ord'.

Lemma tree_loop_ok v : forall n g es ord ta r,
  dinv g0 g adj es ord ta r -> gstack g = flat g0 es -> dmeas es ord < Z.of_nat n ->
  wp (dfs_tree_loop n g (1 + Z.of_nat (length ord)) v) (tree_post r ord).
Proof.
  induction n as [|n IH]; intros g es ord ta r D S Hm.
  { destruct (dinv_len _ _ _ _ _ D). unfold dmeas in Hm. nia. }
  rewrite tree_loop_unfold. unfold stk_empty. rewrite S.
  destruct es as [|e es].
  - cbn [flat flat_map]. apply wp_ret. exists ord, ta. cbn [fst snd]. auto using incl_refl.
  - change (flat g0 (e :: es)) with (e :: src g0 e :: flat g0 es) in *. cbv beta iota.
    rewrite (pop2_ok _ _ _ _ S). cbn [bind].
    destruct (di_es_arc _ _ _ _ _ _ _ D e (or_introl eq_refl)) as (B1 & B2 & B3).
    destruct (arc_primary _ _ B1) as [Ps Pn].
    rewrite (eqb_false_neq (src g0 e) NIL) by (destruct Ps; unfold NIL; lia).
    pose proof (di_frame _ _ _ _ _ _ _ D) as F.
    assert (Ie : inE (set_gstack g (flat g0 es)) e = true) by (apply (arc_inE _ (src g0 e)); [apply F|auto]).
    rewrite (get_nbr _ _ Ie). cbn [bind]. gsimp. rewrite (dff_enbr _ _ F).
    destruct (prim_inV (set_gstack g (flat g0 es)) (enbr g0 e)) as [Iv Ii]; [apply F|auto|].
    rewrite (get_visited _ _ Iv). cbn [bind]. gsimp.
    destruct (Z.land (vflags g (enbr g0 e)) VERTEX_VISITED_MASK =? 0) eqn:Ev.
    + assert (Uv : visited g (enbr g0 e) = false) by (unfold visited; now rewrite Ev).
      destruct (visit_code_ok g (e :: es) es ord ta r (enbr g0 e) (src g0 e) e D Pn Uv) as (g1 & E1 & D1 & S1); [left; auto|].
      rewrite E1. cbn [bind].
      rewrite (eqb_false_neq e NIL) in D1 by (apply (ch_nonnil _ _ _ _ (rep_chains _ _ R0) B1)).
      replace (1 + Z.of_nat (length ord) + 1) with (1 + Z.of_nat (length (enbr g0 e :: ord))) by (cbn [length]; lia).
      eapply wp_conseq; [|apply (IH _ _ _ _ _ D1 S1)].
      * intros p (ord' & ta' & Q1 & Q2 & Q3 & Q4). exists ord', ta'. do 3 (split; [auto|]).
        intros x Hx. apply Q4. now right.
      * destruct (dinv_len _ _ _ _ _ D1) as [L1 L2]. unfold dmeas in *. cbn [length] in *. nia.
    + assert (Uv : visited g (enbr g0 e) = true) by (unfold visited; now rewrite Ev).
      destruct (arc_twin _ _ B1) as (_ & B4 & B5 & _).
      assert (Ie' : inE (set_gstack g (flat g0 es)) (twin e) = true) by (apply (arc_inE _ (enbr g0 e)); [apply F|auto]).
      pose proof (mark_edge_ok _ e EDGE_TYPE_FORWARD EDGE_TYPE_BACK Ie Ie') as E1.
      destruct (gp_SetEdgeType (set_gstack g (flat g0 es)) e EDGE_TYPE_FORWARD) as [h| |]; cbn [bind] in *; try discriminate.
      rewrite E1. cbn [bind].
      pose proof (di_edge _ _ _ _ _ _ _ D _ _ B1 B2) as St.
      assert (T : etype g e = 0 /\ etype g (twin e) = 0).
      { destruct St as [? ? ? ? A|? ? ? ? A|? ? ? ? A|? ? ? ? A|? ? ? ? A|? ? A]; try congruence; auto. exfalso; apply A; now left. }
      destruct T as [T1 T2].
      assert (Te := fun x => etype_mark (set_gstack g (flat g0 es)) e EDGE_TYPE_FORWARD EDGE_TYPE_BACK x eq_refl eq_refl T1 T2).
      apply (IH _ es ord ta r).
      * apply (pop_step g _ e es ord ta r D Uv); auto.
        -- apply frame_mark_edge; auto. now apply frame_stack.
        -- rewrite Te. rewrite (eqb_false_neq e (twin e)) by (apply not_eq_sym, twin_neq). now rewrite Z.eqb_refl.
        -- rewrite Te. now rewrite Z.eqb_refl.
        -- intros x N1 N2. rewrite Te. now rewrite (eqb_false_neq x (twin e)), (eqb_false_neq x e) by auto.
      * reflexivity.
      * unfold dmeas in *. cbn [length] in Hm. lia.
Qed.

(** *** The forest loop *)
Definition forest_post (g : graph) : Prop :=
  exists ord ta, dinv g0 g adj [] ord ta (gN g0) /\ gstack g = [] /\ Z.of_nat (length ord) = gN g0.

Lemma forest_loop_ok : forall n g ord ta v,
  dinv g0 g adj [] ord ta (v - 1) -> gstack g = [] -> 1 <= v <= gN g0 + 1 ->
  (forall x, 1 <= x < v -> visited g x = true) -> gN g0 + 1 - v < Z.of_nat n ->
  wp (dfs_forest_loop n g (1 + Z.of_nat (length ord)) v) forest_post.
Proof.
  induction n as [|n IH]; intros g ord ta v D S Hv Hvis Hn; [lia|]. cbn [dfs_forest_loop].
  pose proof (di_frame _ _ _ _ _ _ _ D) as F. rewrite (dff_N _ _ F).
  destruct (dinv_len _ _ _ _ _ D) as [_ L].
  destruct (1 + Z.of_nat (length ord) <=? gN g0) eqn:EL; [apply Z.leb_le in EL|apply Z.leb_gt in EL].
  - assert (Pv : primary g0 v).
    { split; [lia|]. destruct (Z.eq_dec v (gN g0 + 1)) as [->|]; [|lia]. exfalso.
      assert (Hl : (length (map (fun i : nat => (Z.of_nat i + 1)%Z) (seq 0 (Z.to_nat (gN g0)))) <= length ord)%nat).
      { apply NoDup_incl_length.
        - apply FinFun.Injective_map_NoDup; [intros a b; lia|apply seq_NoDup].
        - intros x Hx. apply in_map_iff in Hx. destruct Hx as (i & <- & Hi). apply in_seq in Hi.
          apply (di_ord _ _ _ _ _ _ _ D). split; [split; lia|apply Hvis; lia]. }
      rewrite map_length, seq_length in Hl. lia. }
    destruct (prim_inV g v) as [Iv Ii]; [apply F|auto|].
    unfold gp_GetVertexParent, rd_vi. rewrite guard_true by exact Ii. cbn [bind]. fold (par g v).
    destruct (par g v =? NIL) eqn:Ep; cbn [negb].
    + apply Z.eqb_eq in Ep.
      assert (Uv : visited g v = false).
      { destruct (visited g v) eqn:E; [|auto]. assert (Hin : In v ord) by (apply (di_ord _ _ _ _ _ _ _ D); auto).
        pose proof (di_rt _ _ _ _ _ _ _ D v Hin Ep). lia. }
      rewrite push2_ok by (rewrite S, (dff_stackCap _ _ F); cbn [length]; lia). cbn [bind].
      unfold tfuel. rewrite tree_loop_unfold. unfold stk_empty. gsimp. cbv beta iota.
      rewrite (pop2_ok _ NIL NIL (gstack g)) by reflexivity. cbn [bind]. rewrite Z.eqb_refl. cbn [bind].
      gsimp. change (set_gstack (set_gstack g (NIL :: NIL :: gstack g)) (gstack g)) with (set_gstack g (gstack g)).
      rewrite get_visited by exact Iv. cbn [bind]. gsimp.
      assert (Ev : (Z.land (vflags g v) VERTEX_VISITED_MASK =? 0) = true).
      { unfold visited in Uv. destruct (Z.land (vflags g v) VERTEX_VISITED_MASK =? 0); [auto|discriminate]. }
      rewrite Ev. rewrite S.
      destruct (visit_code_ok g [] [] ord ta (v - 1) v NIL NIL D Pv Uv) as (g1 & E1 & D1 & S1); [right; repeat split; auto; lia|].
      change (flat g0 []) with (@nil Z) in E1. rewrite E1. cbn [bind]. rewrite Z.eqb_refl in D1.
      rewrite app_nil_r in *.
      replace (1 + Z.of_nat (length ord) + 1) with (1 + Z.of_nat (length (v :: ord))) by (cbn [length]; lia).
      apply wp_bind. eapply wp_conseq; [|apply (tree_loop_ok v _ _ _ _ _ _ D1 S1)].
      * intros [g2 DFI2] (ord' & ta' & Q1 & Q2 & Q3 & Q4). cbn [fst snd] in *. rewrite Q3.
        apply (IH g2 ord' ta' (v + 1)); auto.
        -- replace (v + 1 - 1) with v by lia. exact Q1.
        -- destruct Pv. lia.
        -- intros x Hx. apply (di_ord _ _ _ _ _ _ _ Q1). apply Q4.
           destruct (Z.eq_dec x v) as [->|]; [now left|]. right. apply (di_ord _ _ _ _ _ _ _ D).
           destruct Pv. split; [split; lia|]. apply Hvis; lia.
        -- lia.
      * destruct (dinv_len _ _ _ _ _ D1) as [L1 L2]. unfold dmeas. cbn [length] in *. unfold gp_EdgeIndexBound. gsimp.
        rewrite (dff_N _ _ F), (dff_cap _ _ F). rewrite Nat2Z.inj_mul, !Nat2Z.inj_succ, !Z2Nat.id by lia. nia.
    + apply Z.eqb_neq in Ep. apply (IH g ord ta (v + 1)); auto; try lia.
      * replace (v + 1 - 1) with v by lia. destruct D; constructor; auto. intros x Hx Hp. pose proof (di_rt0 x Hx Hp). lia.
      * destruct Pv. lia.
      * intros x Hx. destruct (Z.eq_dec x v) as [->|]; [|apply Hvis; lia].
        destruct (visited g v) eqn:E; [auto|]. exfalso. apply Ep. now apply (di_par_un _ _ _ _ _ _ _ D).
  - apply wp_ret. exists ord, ta. split; [|split; [auto|lia]].
    destruct D; constructor; auto. intros x Hx Hp. apply di_ord0 in Hx. destruct Hx as [[] _]. lia.
Qed.
End Search.
