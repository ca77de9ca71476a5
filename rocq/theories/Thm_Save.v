(** * Thm_Save: the edge list written by the planarity program lists every edge once. *)
From Coq Require Import ZifyBool Permutation String Ascii.
From Verif Require Import Base BaseP GraphRec GraphM GraphSpec GraphP GraphP2 GraphP3 GraphEx RandSpec RandP DrawM IOSpec IOP7 Thm_Graph Thm_IO SaveM.
From Verif Require DrawP.
Open Scope list_scope.

(** The text for a list of edges given by their ends: the name, a line for each edge, a line "0 0". *)
Definition edge_list_text (name : list Z) (es : list (Z * Z)) : list Z :=
  name ++ [10] ++ concat (map (fun p => dec (fst p) ++ [32] ++ dec (snd p) ++ [10]) es) ++ [48; 32; 48; 10].

Definition usedb (g : graph) (e : Z) : bool := negb (enbr g e =? NIL).
Definition evens (k : Z) (m : nat) : list Z := map (fun j => 2 * j) (zrange k m).
Definition ends (g : graph) (e : Z) : Z * Z := (enbr g e, enbr g (twin e)).

Lemma ends_even g k : ends g (2 * k) = (enbr g (2 * k), enbr g (2 * k + 1)).
Proof. unfold ends, twin. rewrite DrawP.twin_even. reflexivity. Qed.
Lemma evens_S k m : evens k (S m) = 2 * k :: evens (k + 1) m.
Proof. unfold evens, zrange. cbn [seq map]. rewrite <- seq_shift, !map_map. f_equal; [lia|]. apply map_ext. intros i. lia. Qed.
Lemma save_edges_ok g : gp_EdgeInUseIndexBound g <= gp_EdgeIndexBound g -> forall m n k, 1 <= k -> 2 * k + 2 * Z.of_nat m = gp_EdgeInUseIndexBound g -> (m < n)%nat ->
  save_edges n g (2 * k) = Ret (concat (map (fun p => dec (fst p) ++ [32] ++ dec (snd p) ++ [10]) (map (ends g) (filter (usedb g) (evens k m))))).
Proof.
  intros HB. induction m as [|m IH]; intros n k Hk Hm Hn; (destruct n as [|n]; [lia|]); cbn [save_edges].
  - destruct (Z.ltb_spec (2 * k) (gp_EdgeInUseIndexBound g)); [lia|reflexivity].
  - destruct (Z.ltb_spec (2 * k) (gp_EdgeInUseIndexBound g)); [|lia].
    unfold gp_GetNeighbor, guard at 1, inE. destruct ((0 <=? 2 * k) && (2 * k <? gp_EdgeIndexBound g)) eqn:K1; [|lia]. cbn [bind].
    rewrite evens_S. cbn [filter]. change (usedb g (2 * k)) with (negb (enbr g (2 * k) =? NIL)).
    replace (2 * k + 2) with (2 * (k + 1)) by lia. rewrite (IH n (k + 1)) by lia.
    destruct (negb (enbr g (2 * k) =? NIL)); cbn [bind map concat].
    + unfold guard. destruct ((0 <=? 2 * k + 1) && (2 * k + 1 <? gp_EdgeIndexBound g)) eqn:K2; [|lia]. cbn [bind]. rewrite ends_even. cbn [fst snd]. reflexivity.
    + reflexivity.
Qed.

Section Edges.
Variables (g : graph) (adj : Z -> list Z).
Hypothesis R : rep g adj.
Let E := filter (usedb g) (evens 1 (Z.to_nat (gM g) + length (gholes g))).
Lemma in_E e : In e E <-> Z.even e = true /\ exists v, In e (adj v).
Proof.
  pose proof (st_M _ _ (rep_storage _ _ R)) as HM.
  unfold E. rewrite filter_In. unfold evens. rewrite in_map_iff. rewrite <- (rep_in_use _ _ e R). unfold in_use, usedb, gp_EdgeInUseIndexBound. split.
  - intros [(j & <- & Hj) H]. apply in_zrange in Hj. split; [rewrite Z.even_mul; reflexivity|]. lia.
  - intros [He [H1 H2]]. apply Z.even_spec in He. destruct He as [j ->]. split; [exists j; split; [reflexivity|]; apply in_zrange; lia|lia].
Qed.
Lemma E_nodup : NoDup E.
Proof. apply NoDup_filter. unfold evens. apply FinFun.Injective_map_NoDup; [intros a b H; lia|apply NoDup_zrange]. Qed.
Lemma E_twin v e : In e (adj v) -> (In e E <-> ~ In (twin e) E).
Proof.
  intros H. destruct (rep_twins _ _ R v e H) as [_ T]. rewrite !in_E. assert (P : Z.even (twin e) = negb (Z.even e)).
  { unfold twin. rewrite <- !Z.negb_odd, <- !Z.bit0_odd, Z.lxor_spec. destruct (Z.testbit e 0); reflexivity. }
  rewrite P. destruct (Z.even e); cbn [negb]; split.
  - intros _ [X _]. discriminate.
  - intros _. split; [reflexivity|exists v; exact H].
  - intros [X _]. discriminate.
  - intros X. destruct X. split; [reflexivity|]. eexists. exact T.
Qed.
Lemma E_length : Z.of_nat (length E) = gM g.
Proof.
  assert (X : Permutation (all_arcs g adj) (E ++ map twin E)).
  { apply NoDup_Permutation; [apply NoDup_all_arcs, R| |].
    - apply NoDup_app_intro; [apply E_nodup|apply FinFun.Injective_map_NoDup; [intros a b H; apply (twin_inj _ _ H)|apply E_nodup]|].
      intros x Hx Hy. apply in_map_iff in Hy. destruct Hy as (y & <- & Hy). pose proof Hy as Hy'. apply in_E in Hy'. destruct Hy' as [_ (v & Hv)]. apply (E_twin v y Hv) in Hy. contradiction.
    - intros e. rewrite (in_all_arcs g adj e (rep_chains _ _ R)), in_app_iff, in_map_iff. split.
      + intros (v & Hv). destruct (in_dec Z.eq_dec e E) as [Q|Q]; [auto|]. right. exists (twin e). split; [apply twin_twin|].
        destruct (in_dec Z.eq_dec (twin e) E) as [Q'|Q']; [exact Q'|]. apply (E_twin v e Hv) in Q'. contradiction.
      + intros [H|(y & <- & H)]; apply in_E in H; destruct H as [_ (v & Hv)]; [eauto|]. exists (enbr g y). apply (rep_twins _ _ R v y Hv). }
  apply Permutation_length in X. rewrite app_length, map_length in X. pose proof (all_arcs_length g adj R). lia.
Qed.
End Edges.

(** ** C71 *)
(** Any graph, with loops and repeated edges if it has any: there is a list of arcs with exactly one of the two arcs
    of every edge, M in number, and the text has a line for the two ends of each. *)
Theorem C71_every_edge_once :
  forall g adj name, rep g adj ->
    exists E, SaveAsciiGraph name g = Ret (edge_list_text name (map (fun e => (enbr g e, enbr g (twin e))) E)) /\ NoDup E /\ Z.of_nat (length E) = gM g /\
      (forall e, In e E -> exists v, In e (adj v)) /\ (forall v e, In e (adj v) -> (In e E <-> ~ In (twin e) E)).
Proof.
  intros g adj name R. exists (filter (usedb g) (evens 1 (Z.to_nat (gM g) + length (gholes g)))).
  pose proof (st_M _ _ (rep_storage _ _ R)) as HM. pose proof (st_cap _ _ (rep_storage _ _ R)) as HC. split.
  - unfold SaveAsciiGraph. change 2 with (2 * 1) at 1. rewrite (save_edges_ok g HC (Z.to_nat (gM g) + length (gholes g))); [reflexivity|lia| |];
      unfold efuel; unfold gp_EdgeInUseIndexBound in *; lia.
  - split; [apply E_nodup|]. split; [apply (E_length g adj R)|]. split; [intros e He; apply (in_E g adj R) in He; apply He|]. intros v e He. apply (E_twin g adj R v e He).
Qed.
(** In particular every graph reached by adding, inserting and deleting edges, growing and reinitialising. *)
Theorem C71_histories :
  forall g name, reach g -> exists adj E, rep g adj /\
    SaveAsciiGraph name g = Ret (edge_list_text name (map (fun e => (enbr g e, enbr g (twin e))) E)) /\ NoDup E /\ Z.of_nat (length E) = gM g /\
      (forall e, In e E -> exists v, In e (adj v)) /\ (forall v e, In e (adj v) -> (In e E <-> ~ In (twin e) E)).
Proof.
  intros g name H. destruct (proj1 (C04_histories_well_formed g H)) as (adj & R & _). destruct (C71_every_edge_once g adj name R) as (E & K). exists adj, E. auto.
Qed.
(** A simple graph: the lines are M different pairs of adjacent vertices, and every two adjacent vertices are in exactly one line. *)
Theorem C71_simple :
  forall g adj name, rep g adj -> simple g adj ->
    exists es, SaveAsciiGraph name g = Ret (edge_list_text name es) /\ NoDup es /\ Z.of_nat (length es) = gM g /\
      (forall u v, In (u, v) es -> adjacent g adj u v) /\
      (forall u v, adjacent g adj u v -> (In (u, v) es <-> ~ In (v, u) es)).
Proof.
  intros g adj name R [S1 S2]. destruct (C71_every_edge_once g adj name R) as (E & T & ND & LE & In1 & Tw).
  exists (map (fun e => (enbr g e, enbr g (twin e))) E). split; [exact T|].
  assert (K : forall e f, In e E -> In f E -> (enbr g e, enbr g (twin e)) = (enbr g f, enbr g (twin f)) -> e = f).
  { intros e f He Hf H. injection H as H1 H2. destruct (In1 e He) as (v & Hv), (In1 f Hf) as (w & Hw).
    destruct (rep_twins _ _ R v e Hv) as [T1 _], (rep_twins _ _ R w f Hw) as [T2 _]. assert (Q : w = v) by congruence. rewrite Q in Hw. exact (S2 v e f Hv Hw H1). }
  split; [|split; [rewrite map_length; exact LE|split]].
  - clear - ND K. induction ND as [|e E Hn ND IH]; [constructor|]. cbn [map]. constructor; [|apply IH; intros a b Ha Hb; apply K; right; auto].
    rewrite in_map_iff. intros (f & Q & Hf). apply Hn. rewrite <- (K f e); [exact Hf|right; exact Hf|left; reflexivity|exact Q].
  - intros u v H. apply in_map_iff in H. destruct H as (e & Q & He). injection Q as Q1 Q2. destruct (In1 e He) as (w & Hw).
    destruct (rep_twins _ _ R w e Hw) as [T1 T2]. exists (twin e). rewrite Q1 in T2. split; [exact T2|exact Q2].
  - intros u v (e & He & Hv). destruct (rep_twins _ _ R u e He) as [T1 T2].
    assert (A : In (v, u) (map (fun e => (enbr g e, enbr g (twin e))) E) <-> In e E).
    { rewrite in_map_iff. split.
      - intros (f & Q & Hf). injection Q as Q1 Q2. destruct (In1 f Hf) as (w & Hw). destruct (rep_twins _ _ R w f Hw) as [T3 _].
        assert (Q : w = u) by congruence. rewrite Q in Hw. assert (Q' : e = f) by (apply (S2 u); congruence). rewrite Q'. exact Hf.
      - intros H. exists e. rewrite T1, Hv. auto. }
    assert (B : In (u, v) (map (fun e => (enbr g e, enbr g (twin e))) E) <-> In (twin e) E).
    { rewrite in_map_iff. split.
      - intros (f & Q & Hf). injection Q as Q1 Q2. destruct (In1 f Hf) as (w & Hw). destruct (rep_twins _ _ R w f Hw) as [T3 _].
        assert (Q : w = v) by congruence. rewrite Q in Hw. rewrite Hv in T2. assert (Q' : twin e = f) by (apply (S2 v); congruence). rewrite Q'. exact Hf.
      - intros H. exists (twin e). unfold twin at 2. rewrite T1. unfold twin. rewrite twin_twin, Hv. auto. }
    rewrite A, B. pose proof (Tw u e He) as X. destruct (in_dec Z.eq_dec (twin e) E); tauto.
Qed.
(** The edge list of a graph on four vertices. *)
Example save_case : exists adj, rep io_demo adj /\ simple io_demo adj /\ gM io_demo = 4 /\ SaveAsciiGraph [120] io_demo = Ret (txt "x|2 4|1 3|1 2|4 1|0 0|").
Proof.
  destruct io_demo_case as (adj & R & S & _). exists adj. split; [exact R|]. split; [exact S|]. split; vm_compute; reflexivity.
Qed.
(** One with a repeated edge, a loop and a deleted edge. *)
Definition save_demo : graph := built 0 4 (adds [(2, 4); (1, 3); (1, 2); (4, 4); (1, 2)] ++ [GDel 4 0]).
Example save_history : reach save_demo /\ gM save_demo = 4 /\ SaveAsciiGraph [120] save_demo = Ret (txt "x|2 4|1 2|4 4|1 2|0 0|").
Proof. split; [apply built_reach; vm_compute; reflexivity|]. split; vm_compute; reflexivity. Qed.
Print Assumptions C71_histories.
Print Assumptions C71_every_edge_once.
Print Assumptions C71_simple.
