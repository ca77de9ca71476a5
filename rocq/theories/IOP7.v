(** * IOP7: writing an adjacency list; the round trip. *)
From Coq Require Import ZifyBool Permutation.
From Verif Require Import Base BaseP GraphRec GraphM GraphSpec DFSSpec RandSpec GSimp LinkP GraphP GraphP2 GraphP3 GraphP4 GraphP5 EmbP
  G6Spec G6P RandP2 StrBufM StrFileM DrawM ObsP3 IOSpec IOP IOP2 IOP3 IOP4 IOP5 IOP6 IOM.

Lemma write_arcs_ok g off l : forall f, (length l < f)%nat -> walks (eprev g) l ->
  (forall e, In e l -> 2 <= e < gp_EdgeIndexBound g /\ Z.land (eflags g e) DIR_MASK = 0) ->
  write_arcs f g off (hd NIL l) = Ret (concat (map (fun w => 32 :: dec (w - off)) (map (enbr g) l))).
Proof.
  induction l as [|e l IH]; intros f Hf HW HR; (destruct f as [|f]; [cbn [length] in Hf; lia|]); cbn [write_arcs hd].
  - rewrite Z.eqb_refl. reflexivity.
  - destruct (HR e (or_introl eq_refl)) as [R1 R2]. replace (e =? NIL) with false by (unfold NIL; lia).
    unfold gp_GetDirection. rewrite rd_eflags_ok by (apply inE_true; lia). rewrite !bind_ret, R2.
    change (negb (0 =? DIR_INONLY)) with true. cbv iota.
    rewrite get_nbr by (apply inE_true; lia). rewrite !bind_ret. rewrite get_prev by (apply inE_true; lia). rewrite bind_ret.
    destruct HW as [W1 W2]. rewrite W1. rewrite IH; [|cbn [length] in Hf; lia|exact W2|intros x Hx; apply HR; right; exact Hx].
    rewrite bind_ret. reflexivity.
Qed.

Definition off_of (g : graph) : Z := if zero_based g then 1 else 0.

Lemma write_lists_ok g adj : rep g adj -> undirected g adj ->
  forall m v, 1 <= v -> v + Z.of_nat m = gN g + 1 ->
  write_lists m g v = Ret (concat (map (adj_line (off_of g) (nbr_lists g adj)) (zrange v m))).
Proof.
  intros R U. pose proof (rep_chains _ _ R) as Ch. induction m as [|m IH]; intros v Hv Hm; [reflexivity|].
  cbn [write_lists]. assert (Vv : is_vertex g v) by (unfold is_vertex; lia).
  rewrite get_last by (apply inV_true; auto). rewrite bind_ret, (ch_last _ _ Ch) by auto.
  rewrite <- (hd_rev_last (adj v)).
  rewrite write_arcs_ok.
  - rewrite bind_ret. rewrite IH by lia. rewrite bind_ret. rewrite zrange_S. cbn [map concat]. unfold adj_line, off_of, nbr_lists.
    rewrite map_rev. f_equal. rewrite <- !app_assoc. destruct (zero_based g); reflexivity.
  - rewrite rev_length. pose proof (adj_len _ _ v Ch). lia.
  - pose proof (linked_rev _ _ _ _ _ (ch_linked _ _ Ch v Vv)) as LR. eapply linked_walks. exact LR.
  - intros e He. apply in_rev in He. split; [exact (ch_range _ _ Ch _ _ He)|exact (U _ _ He)].
Qed.

Lemma write_adj_ok g adj : rep g adj -> undirected g adj ->
  _WriteAdjList g = Ret (adj_text (gN g) (off_of g) (nbr_lists g adj), C_OK).
Proof.
  intros R U. pose proof (st_N _ _ (rep_storage _ _ R)). unfold _WriteAdjList. rewrite (write_lists_ok g adj R U) by lia. reflexivity.
Qed.

Lemma lists_of_graph g adj : rep g adj -> simple g adj -> primary_edges g adj -> lists_ok (gN g) (nbr_lists g adj).
Proof.
  intros R [S1 S2] PE. unfold nbr_lists. constructor.
  - intros v w H. apply in_map_iff in H. destruct H as (e & <- & He). pose proof (PE _ _ He) as P1.
    destruct (rep_twins _ _ R _ _ He) as [_ T2]. pose proof (PE _ _ T2) as P2. unfold primary in *. lia.
  - intros v. assert (ND : NoDup (adj v)) by apply (rep_chains _ _ R).
    assert (INJ : forall e f, In e (adj v) -> In f (adj v) -> enbr g e = enbr g f -> e = f) by (intros; eapply S2; eauto).
    clear S1 S2. induction (adj v) as [|e l IH]; [constructor|]. inversion ND as [|x y N1 N2]; subst x y. cbn [map]. constructor.
    + intros H. apply in_map_iff in H. destruct H as (f & E & Hf). apply N1.
      rewrite (INJ e f (or_introl eq_refl) (or_intror Hf) (eq_sym E)). exact Hf.
    + apply IH; auto. intros; apply INJ; auto; right; auto.
  - intros v w H. apply in_map_iff in H. destruct H as (e & <- & He). destruct (rep_twins _ _ R _ _ He) as [T1 T2].
    apply in_map_iff. exists (twin e). auto.
  - intros v H. apply in_map_iff in H. destruct H as (e & E & He). exact (S1 _ _ He E).
Qed.

(** The result of reading satisfies what the source satisfied. *)
Lemma lists_simple h adj L : rep h adj -> lists_ok (gN h) L -> (forall v, map (enbr h) (adj v) = L v) -> simple h adj /\ primary_edges h adj.
Proof.
  intros R HL E. split; [split|].
  - intros v e He EN. apply (lo_loop _ _ HL v). rewrite <- E, <- EN at 1. apply in_map_iff. exists e. auto.
  - intros v e f He Hf EN. pose proof (lo_nodup _ _ HL v) as ND. rewrite <- E in ND. clear E.
    induction (adj v) as [|x l IH]; [destruct He|]. cbn [map] in ND. inversion ND as [|a b N1 N2]; subst a b.
    destruct He as [->|He], Hf as [->|Hf]; auto.
    + exfalso. apply N1. rewrite EN. apply in_map. exact Hf.
    + exfalso. apply N1. rewrite <- EN. apply in_map. exact He.
  - intros v e He. destruct (lo_range _ _ HL v (enbr h e)); [|exact H]. rewrite <- E. apply in_map. exact He.
Qed.

Lemma list_header fuel g n off L : starts_with leda_tag (adj_text n off L) = false /\ starts_with list_tag (adj_text n off L) = true /\
  gp_Read fuel g (adj_text n off L) = ('(g, _, r) <- _ReadAdjList fuel g (SFile (adj_text n off L)) ;; Ret (g, r)).
Proof.
  split; [reflexivity|]. split; [reflexivity|].
  assert (K : forall s, exists t r, get_line None (78 :: 61 :: s) = (Some (78 :: 61 :: t), r)).
  { intros s. unfold get_line. change (fgets_take 254 (78 :: 61 :: s)) with
      (let '(t, r) := (let '(t, r) := fgets_take 252 s in (61 :: t, r)) in (78 :: t, r)).
    destruct (fgets_take 252 s) as [t r]. eauto. }
  unfold gp_Read. change (adj_text n off L) with (78 :: 61 :: dec n ++ [10] ++ concat (map (adj_line off L) (from 1 n))).
  destruct (K (dec n ++ [10] ++ concat (map (adj_line off L) (from 1 n)))) as (t & r & ->).
  cbn [fst line_text bind]. reflexivity.
Qed.

Lemma list_trip g adj fuel : rep g adj -> simple g adj -> primary_edges g adj -> undirected g adj -> gN g <= 32768 ->
  gN g <= Z.of_nat fuel ->
  exists text, _WriteAdjList g = Ret (text, C_OK) /\
  forall rd, rd = gp_Read \/ rd = gp_ReadFromString ->
  exists h adj', rd fuel gp_New text = Ret (h, C_OK) /\ rep h adj' /\ simple h adj' /\ primary_edges h adj' /\ undirected h adj' /\
    gN h = gN g /\ zero_based h = zero_based g /\ forall v, nbr_lists h adj' v = nbr_lists g adj v.
Proof.
  intros R Si PE U Hn Hf. pose proof (st_N _ _ (rep_storage _ _ R)) as N1. eexists. split; [apply (write_adj_ok g adj R U)|].
  intros rd Hrd. pose proof (lists_of_graph g adj R Si PE) as HL.
  assert (Ho : off_ok (off_of g)) by (unfold off_ok, off_of; destruct (zero_based g); auto).
  assert (FIN : forall k, exists h adj', _ReadAdjList fuel gp_New (mk k (adj_text (gN g) (off_of g) (nbr_lists g adj))) = Ret (h, mk k [], C_OK) /\
     rep h adj' /\ simple h adj' /\ primary_edges h adj' /\ undirected h adj' /\
     gN h = gN g /\ zero_based h = zero_based g /\ forall v, nbr_lists h adj' v = nbr_lists g adj v).
  { intros k. destruct (read_adj_ok k (gN g) (off_of g) (nbr_lists g adj) fuel HL ltac:(lia) Ho ltac:(lia)) as (h & adj' & E & R' & N' & F' & Fl & LL).
    exists h, adj'. split; [exact E|]. split; [exact R'|]. rewrite <- N' in HL. destruct (lists_simple h adj' _ R' HL LL) as [S' P'].
    split; [exact S'|]. split; [exact P'|]. split.
    { intros v e He. rewrite Fl; [reflexivity|]. exact (ch_range _ _ (rep_chains _ _ R') _ _ He). }
    split; [exact N'|]. split; [|exact LL]. unfold zero_based at 1. rewrite F'. unfold off_of. destruct (zero_based g); reflexivity. }
  destruct Hrd as [->| ->].
  - destruct (FIN true) as (h & adj' & E & K). exists h, adj'. split; [|exact K].
    rewrite (proj2 (proj2 (list_header fuel gp_New (gN g) (off_of g) (nbr_lists g adj)))). cbn [mk] in E. rewrite E. reflexivity.
  - destruct (FIN false) as (h & adj' & E & K). exists h, adj'. split; [|exact K].
    unfold gp_ReadFromString. destruct (list_header fuel gp_New (gN g) (off_of g) (nbr_lists g adj)) as (-> & -> & _).
    cbn [mk] in E. rewrite E. reflexivity.
Qed.
