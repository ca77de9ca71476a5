(** * IOP6: reading a whole adjacency list text. *)
From Coq Require Import ZifyBool Permutation.
From Verif Require Import Base BaseP GraphRec GraphM GraphSpec GSimp LinkP GraphP GraphP2 GraphP3 GraphP4 GraphP5 EmbP
  G6P RandP2 StrBufM DrawM ObsP3 IOSpec IOP IOP2 IOP3 IOP4 IOP5 IOM.

Section Lists.
Variables (n C : Z) (L : Z -> list Z).
Hypothesis HL : lists_ok n L.
Hypothesis HnC : n * (n - 1) <= C.
Hypothesis HCI : 2 * C <= INT_MAX.
Hypothesis Hn : 1 <= n <= INT_MAX.

(** The state before the line of vertex v is read. *)
Record pre (v : Z) (g : graph) (adj : Z -> list Z) : Prop := {
  pr_mid : mid n C g adj v [];
  pr_low : forall u, 1 <= u < v -> map (enbr g) (adj u) = L u;
  pr_up : forall w, v <= w <= n -> NoDup (map (enbr g) (adj w)) /\
            forall u, In u (map (enbr g) (adj w)) <-> (1 <= u < v /\ In w (L u));
  pr_out : forall w, n < w -> adj w = [];
  pr_vis : forall u, 1 <= u <= n -> viVisited (gVI g) u = NIL;
  pr_pairs : exists P, NoDup P /\ Z.of_nat (length P) = gM g /\ forall x y, In (x, y) P -> 1 <= x < y /\ y <= n /\ x < v }.

Lemma mid_any g adj v w : mid n C g adj v [] -> mid n C g adj w [].
Proof.
  intros M. assert (OW : forall x e, owned adj v [] x e <-> owned adj w [] x e) by (intros; unfold owned; cbn [In]; tauto).
  constructor; try apply M.
  - intros x e H. apply (md_own _ _ _ _ _ _ M). apply OW. exact H.
  - intros e H. apply OW. apply (md_cover _ _ _ _ _ _ M). exact H.
Qed.

Lemma pre_take v g adj : 1 <= v <= n -> pre v g adj ->
  exists g' adj' D, take_list g v = Ret (g', hd NIL D) /\ inv n C L v [] g' adj' D /\ giflags g' = giflags g.
Proof.
  intros Hv P. destruct (pr_up _ _ _ P v ltac:(lia)) as [U1 U2].
  destruct (take_list_ok n C g adj v (pr_mid _ _ _ P) Hv) as (g' & E & M' & EN & EM & EI & V1 & V2).
  { intros e He. assert (H : In (enbr g e) (map (enbr g) (adj v))) by (apply in_map; exact He). apply U2 in H. lia. }
  { exact U1. }
  exists g', (upd adj v []), (adj v). split; [exact E|]. split; [|exact EI]. constructor.
  - exact M'.
  - intros u Hu. rewrite upd_other by lia. rewrite EN. apply (pr_low _ _ _ P). exact Hu.
  - rewrite upd_same. reflexivity.
  - intros e He. rewrite EN. assert (H : In (enbr g e) (map (enbr g) (adj v))) by (apply in_map; exact He). apply U2 in H.
    split; [lia|]. split; [tauto|auto].
  - intros u Hu HuL _. assert (H : In u (map (enbr g) (adj v))) by (apply U2; auto). apply in_map_iff in H.
    destruct H as (e & H1 & H2). exists e. rewrite EN. auto.
  - intros w Hw. rewrite upd_other by lia. rewrite EN. destruct (pr_up _ _ _ P w ltac:(lia)) as [W1 W2]. split; [exact W1|].
    intros u. rewrite W2. cbn [In]. tauto.
  - intros w Hw. rewrite upd_other by lia. apply (pr_out _ _ _ P). exact Hw.
  - intros e He. rewrite EN. apply V1. exact He.
  - intros u Hu HN. rewrite V2; [apply (pr_vis _ _ _ P); exact Hu|]. rewrite EN in HN. intros H. apply in_map_iff in H.
    destruct H as (e & H1 & H2). exact (HN e H2 H1).
  - destruct (pr_pairs _ _ _ P) as (Q & Q1 & Q2 & Q3). exists Q. split; [exact Q1|]. split; [congruence|].
    intros x y H. destruct (Q3 _ _ H) as (H1 & H2 & H3). auto.
Qed.

Lemma inv_done v g adj D : 1 <= v <= n -> inv n C L v (rev (L v)) g adj D -> D = [] /\ pre (v + 1) g adj.
Proof.
  intros Hv I. assert (ED : D = []).
  { destruct D as [|e D]; [reflexivity|]. exfalso. destruct (iv_D _ _ _ _ _ _ _ _ I e (or_introl eq_refl)) as (H1 & H2 & H3).
    apply H3. rewrite <- in_rev. apply (lo_sym _ _ HL). exact H2. }
  split; [exact ED|]. subst D. constructor.
  - eapply mid_any. apply (iv_mid _ _ _ _ _ _ _ _ I).
  - intros u Hu. destruct (Z.eq_dec u v) as [->|]; [|apply (iv_low _ _ _ _ _ _ _ _ I); lia].
    rewrite (iv_cur _ _ _ _ _ _ _ _ I). apply rev_involutive.
  - intros w Hw. destruct (iv_up _ _ _ _ _ _ _ _ I w ltac:(lia)) as [U1 U2]. split; [exact U1|]. intros u. rewrite U2, <- in_rev.
    split; [|intros [H1 H2]; destruct (Z.eq_dec u v) as [->|]; [right; auto|left; split; [lia|exact H2]]].
    intros [[H1 H2]|[-> H2]]; [split; [lia|exact H2]|]. split; [lia|]. exact H2.
  - apply (iv_out _ _ _ _ _ _ _ _ I).
  - intros u Hu. apply (iv_novis _ _ _ _ _ _ _ _ I); [exact Hu|intros e []].
  - destruct (iv_pairs _ _ _ _ _ _ _ _ I) as (Q & Q1 & Q2 & Q3). exists Q. split; [exact Q1|]. split; [exact Q2|].
    intros x y H. destruct (Q3 _ _ H) as (H1 & H2 & H3). split; [exact H1|]. split; [exact H2|lia].
Qed.

Lemma pre_index v g adj x : pre v g adj -> pre v (set_vindex g x) adj.
Proof.
  intros P. constructor; gsimp; try apply P.
  pose proof (pr_mid _ _ _ P) as M. constructor; gsimp; try apply M.
  eapply chains_congr; [..|apply (md_chains _ _ _ _ _ _ M)]; reflexivity.
Qed.

Lemma line_body off v rest : adj_line off L v ++ rest = dec (v - off) ++ 58 :: 32 :: body off (rev (L v)) rest.
Proof.
  unfold adj_line. rewrite <- !app_assoc. f_equal. cbn [app]. f_equal. generalize (rev (L v)). intros q.
  induction q as [|w q IH]; cbn [map concat body app]; [rewrite <- ?app_assoc; reflexivity|].
  f_equal. rewrite <- !app_assoc. f_equal. rewrite <- IH. rewrite <- ?app_assoc. reflexivity.
Qed.

Lemma lines_no_ws off m v : off_ok off -> 1 <= v -> v + Z.of_nat m <= n + 1 ->
  skip_ws (10 :: concat (map (adj_line off L) (zrange v m))) = concat (map (adj_line off L) (zrange v m)).
Proof.
  intros Ho Hv Hm. destruct m as [|m]; [reflexivity|]. rewrite zrange_S. cbn [map concat]. rewrite line_body.
  change (skip_ws (10 :: ?s)) with (skip_ws s). apply dec_not_space. destruct Ho as [->| ->]; lia.
Qed.

(** Reading the lines of m vertices when lines of j more are wanted. *)
Lemma read_lists_part k off fuel : off_ok off -> (Z.to_nat n <= fuel)%nat ->
  forall m j v g adj idx W, 1 <= v -> v + Z.of_nat m + Z.of_nat j = n + 1 -> pre v g adj ->
  exists g' adj' idx' W', read_lists fuel (m + j) (if v =? 1 then 0 else off) v g idx W (mk k (concat (map (adj_line off L) (zrange v m)))) =
     read_lists fuel j (if v + Z.of_nat m =? 1 then 0 else off) (v + Z.of_nat m) g' idx' W' (mk k []) /\
     pre (v + Z.of_nat m) g' adj' /\ giflags g' = giflags g /\ idx' = (if Z.of_nat m =? 0 then idx else Some (v + Z.of_nat m - 1)).
Proof.
  intros Ho Hf. induction m as [|m IH]; intros j v g adj idx W Hv Hm P; cbn [Nat.add read_lists].
  - exists g, adj, idx, W. replace (v + Z.of_nat 0) with v by lia. split; [reflexivity|]. split; [exact P|]. auto.
  - rewrite zrange_S. cbn [map concat]. rewrite line_body. set (rest := concat _).
    rewrite read_nat by (destruct Ho as [->| ->]; [lia|lia|reflexivity|reflexivity] || (try reflexivity; destruct Ho; lia)).
    rewrite bind_ret. cbv beta iota. cbn [use bind].
    assert (Ez : (if (v - off =? 0) && (v =? 1) then 1 else if v =? 1 then 0 else off) = off).
    { destruct Ho as [->| ->]; destruct (Z.eqb_spec v 1) as [->|N]; try reflexivity; rewrite ?andb_false_r; try reflexivity. }
    rewrite Ez. unfold iadd. replace (v - off + off) with v by lia.
    replace (int_ok v) with true by (unfold int_ok, INT_MAX in *; lia). cbn [guard bind].
    pose proof (md_N _ _ _ _ _ _ (pr_mid _ _ _ P)) as EN.
    unfold gp_SetVertexIndex. rewrite guard_true by (apply inV_true; unfold is_vertex; lia). rewrite bind_ret.
    unfold gp_GetVertexIndex. rewrite guard_true by (apply inV_true; unfold is_vertex; cbn; lia). rewrite bind_ret.
    cbn [vindex set_vindex]. rewrite upd_same, Z.eqb_refl. cbn [negb].
    assert (Es : skip_char (mk k (58 :: 32 :: body off (rev (L v)) rest)) = mk k (32 :: body off (rev (L v)) rest)) by (destruct k; reflexivity).
    replace (if if k then false else false then skip_ws (58 :: 32 :: body off (rev (L v)) rest) else 58 :: 32 :: body off (rev (L v)) rest)
      with (58 :: 32 :: body off (rev (L v)) rest) by (destruct k; reflexivity).
    rewrite Es. set (g0 := set_vindex g _).
    destruct (pre_take v g0 adj ltac:(lia) (pre_index _ _ _ _ P)) as (g1 & adj1 & D1 & E1 & I1 & F1). rewrite E1, bind_ret. cbv beta iota.
    destruct (read_list_ok n C L HL HnC HCI Hn k off v rest Ho ltac:(lia)) with (q := rev (L v)) (p := @nil Z) (g := g1) (adj := adj1) (D := D1) (W := W) (sp := [32]) (fuel := fuel)
      as (g2 & adj2 & D2 & E2 & I2 & F2); auto.
    { unfold rest. apply lines_no_ws; auto; lia. }
    { rewrite rev_length. assert (NoDup (v :: L v)) by (constructor; [apply (lo_loop _ _ HL)|apply (lo_nodup _ _ HL)]).
      assert (length (v :: L v) <= length (zrange 1 (Z.to_nat n)))%nat.
      { apply NoDup_incl_length; auto. intros x [<-|Hx]; apply in_zrange; [lia|]. destruct (lo_range _ _ HL _ _ Hx). lia. }
      rewrite zrange_length in H0. cbn [length] in H0. lia. }
    change ([32] ++ body off (rev (L v)) rest) with (32 :: body off (rev (L v)) rest) in E2. rewrite E2, bind_ret. cbv beta iota.
    destruct (inv_done v g2 adj2 D2 ltac:(lia) I2) as [-> P2]. cbn [hd].
    assert (Er : rest_arcs (efuel g2) v g2 NIL = Ret g2) by reflexivity.
    rewrite Er, bind_ret.
    destruct (IH j (v + 1) g2 adj2 (Some v) (Some 0) ltac:(lia) ltac:(lia) P2) as (g3 & adj3 & idx3 & W3 & E3 & P3 & F3 & X3).
    replace (v + 1 =? 1) with false in E3 by lia. fold rest in E3. rewrite E3.
    exists g3, adj3, idx3, W3. replace (v + 1 + Z.of_nat m) with (v + Z.of_nat (S m)) in * by lia. split; [reflexivity|]. split; [exact P3|].
    split; [rewrite F3, F2, F1; reflexivity|]. replace (Z.of_nat (S m) =? 0) with false by lia. rewrite X3.
    destruct (Z.eqb_spec (Z.of_nat m) 0); [f_equal; lia|reflexivity].
Qed.

Lemma read_lists_ok k off fuel : off_ok off -> (Z.to_nat n <= fuel)%nat ->
  forall m v g adj idx W, 1 <= v -> v + Z.of_nat m = n + 1 -> pre v g adj ->
  exists g' adj', read_lists fuel m (if v =? 1 then 0 else off) v g idx W (mk k (concat (map (adj_line off L) (zrange v m)))) =
     Ret (g', mk k [], (if (v =? 1) && (Z.of_nat m =? 0) then 0 else off), C_OK) /\ pre (n + 1) g' adj' /\ giflags g' = giflags g.
Proof.
  intros Ho Hf m v g adj idx W Hv Hm P.
  destruct (read_lists_part k off fuel Ho Hf m 0 v g adj idx W Hv ltac:(lia) P) as (g' & adj' & idx' & W' & E & P' & F & _).
  rewrite Nat.add_0_r in E. exists g', adj'. rewrite E. cbn [read_lists]. rewrite Hm in *. split; [|auto].
  replace (n + 1 =? 1) with false by lia. replace ((v =? 1) && (Z.of_nat m =? 0)) with false by lia. reflexivity.
Qed.
End Lists.

Lemma pre_init n C L : lists_ok n L -> 1 <= n -> 6 * n <= C -> 
  exists g, gp_InitGraph gp_New n = (g, C_OK) /\ gN g = n /\ giflags g = 0 /\
    (forall vi, (forall u, 1 <= u <= n -> viVisited vi u = NIL) -> pre n C L 1 (set_gVI g vi) no_adj).
Proof.
  intros HL Hn HC.
  destruct (wp_inv _ _ (fresh_ok 0 n Hn)) as (g & E & R & EN & Cl & Es & Ec).
  assert (Eg : gp_InitGraph gp_New n = (g, C_OK)).
  { unfold fresh_graph in E. cbn in E. unfold gp_InitGraph in *. replace (n <=? 0) with false in * by lia. cbn [gN gp_New Z.eqb negb] in *.
    unfold _InitGraph in *. cbv zeta in *. cbn [fst] in E. injection E as <-. reflexivity. }
  assert (Fs : gM g = 0 /\ gholes g = [] /\ giflags g = 0 /\ eflags g = zfun /\ 0 <= gstackCap g).
  { unfold gp_InitGraph in Eg. replace (n <=? 0) with false in Eg by lia. cbn [gN gp_New Z.eqb negb] in Eg. unfold _InitGraph in Eg.
    cbv zeta in Eg. injection Eg as <-. repeat split. cbn. destruct (_ <? _) eqn:Q; lia. }
  destruct Fs as (F1 & F2 & F3 & F4 & F5).
  exists g. split; [exact Eg|]. split; [exact EN|]. split; [exact F3|]. intros vi Hvi.
  cbn [andb Z.ltb Z.compare] in Ec. pose proof (rep_storage _ _ R) as St.
  constructor; gsimp.
  - constructor; gsimp; rewrite ?F1, ?F2, ?F4; auto; try lia; try apply R.
    + eapply chains_congr; [..|apply (rep_chains _ _ R)]; reflexivity.
    + exact Logic.I.
    + constructor.
    + intros w e [[]|[_ []]].
  - intros u Hu. lia.
  - intros w Hw. split; [constructor|]. cbn. intros u. split; [intros []|lia].
  - reflexivity.
  - exact Hvi.
  - exists []. split; [constructor|]. split; [rewrite F1; reflexivity|]. intros x y [].
Qed.

Lemma read_adj_ok k n off L fuel : lists_ok n L -> 1 <= n <= 32768 -> off_ok off -> (Z.to_nat n <= fuel)%nat ->
  exists h adj, _ReadAdjList fuel gp_New (mk k (adj_text n off L)) = Ret (h, mk k [], C_OK) /\ rep h adj /\ gN h = n /\
    giflags h = (if off =? 1 then 8 else 0) /\ (forall e, 2 <= e < gp_EdgeIndexBound h -> eflags h e = 0) /\
    forall v, map (enbr h) (adj v) = L v.
Proof.
  intros HL Hn Ho Hf. unfold _ReadAdjList. cbv zeta.
  assert (Et : adj_text n off L = 78 :: 61 :: dec n ++ 10 :: concat (map (adj_line off L) (zrange 1 (Z.to_nat n)))) by reflexivity.
  rewrite Et.
  assert (Es : forall s, skip_char (skip_char (mk k (78 :: 61 :: s))) = mk k s) by (intros; destruct k; reflexivity).
  rewrite Es. set (C := Z.max (6 * n) (n * (n - 1))).
  assert (HC : n * (n - 1) <= C /\ 6 * n <= C /\ 2 * C <= INT_MAX) by (unfold C, INT_MAX; nia).
  assert (Hi : 1 <= n <= INT_MAX) by (unfold INT_MAX; lia).
  rewrite read_nat by (try lia; reflexivity). rewrite bind_ret. cbv beta iota. cbn [use bind].
  destruct (pre_init n C L HL ltac:(lia) ltac:(lia)) as (g & E & EN & EF & PI). rewrite E. cbn [C_OK Z.eqb Pos.eqb negb].
  assert (W : wp (for_up (Z.to_nat (gN g)) 1 (fun v g => gp_SetVertexVisitedInfo g v NIL) g)
     (fun g' => exists vi, g' = set_gVI g vi /\ forall u, 1 <= u <= n -> viVisited vi u = NIL)).
  { eapply wp_mono; [apply (for_up_inv (fun i g' => exists vi, g' = set_gVI g vi /\ forall u, 1 <= u < i -> viVisited vi u = NIL))|].
    - exists (gVI g). split; [destruct g; reflexivity|intros; lia].
    - intros j s Hj (vi & -> & Hvi). unfold gp_SetVertexVisitedInfo.
      rewrite guard_true by (unfold inVI, gp_PrimaryVertexIndexBound; cbn; lia). apply wp_ret.
      eexists. split; [reflexivity|]. intros u Hu. cbn. unfold upd. destruct (Z.eqb_spec u j); [reflexivity|]. apply Hvi. lia.
    - intros g' (vi & -> & Hvi). exists vi. split; [reflexivity|]. intros u Hu. apply Hvi. rewrite EN. lia. }
  destruct (wp_inv _ _ W) as (g1 & E1 & vi & G1 & Hvi). rewrite E1, bind_ret. subst g1. gsimp. rewrite EN.
  replace (if if k then true else true then skip_ws (10 :: concat (map (adj_line off L) (zrange 1 (Z.to_nat n))))
           else 10 :: concat (map (adj_line off L) (zrange 1 (Z.to_nat n))))
     with (concat (map (adj_line off L) (zrange 1 (Z.to_nat n)))) by (destruct k; rewrite (lines_no_ws n L Hi); auto; lia).
  destruct (read_lists_ok n C L HL ltac:(lia) ltac:(lia) Hi k off fuel Ho Hf (Z.to_nat n) 1 (set_gVI g vi) no_adj None None ltac:(lia) ltac:(lia) (PI vi Hvi))
    as (h & adj & E2 & P & F2).
  replace (Z.of_nat (Z.to_nat n) =? 0) with false in E2 by lia. cbn [Z.eqb Pos.eqb andb] in E2. rewrite E2, bind_ret. cbv beta iota. cbn [C_OK Z.eqb Pos.eqb andb].
  pose proof (pr_mid _ _ _ _ _ _ P) as M. pose proof (mid_rep _ _ _ _ _ M ltac:(lia)) as R.
  cbn in F2. rewrite EF in F2.
  assert (LL : forall v, map (enbr h) (adj v) = L v).
  { intros v. destruct (Z_le_gt_dec 1 v) as [V1|V1].
    - destruct (Z_le_gt_dec v n) as [V2|V2]; [apply (pr_low _ _ _ _ _ _ P); lia|].
      rewrite (pr_out _ _ _ _ _ _ P) by lia. cbn [map]. destruct (L v) as [|w l] eqn:EL; [reflexivity|].
      destruct (lo_range _ _ HL v w); [rewrite EL; left; reflexivity|lia].
    - rewrite (ch_out _ _ (rep_chains _ _ R)) by (unfold is_vertex; lia). cbn [map]. destruct (L v) as [|w l] eqn:EL; [reflexivity|].
      destruct (lo_range _ _ HL v w); [rewrite EL; left; reflexivity|lia]. }
  pose proof (md_N _ _ _ _ _ _ M) as EN2.
  destruct Ho as [->| ->]; cbn [Z.eqb Pos.eqb].
  - exists h, adj. split; [reflexivity|]. split; [exact R|]. split; [exact EN2|]. split; [exact F2|]. split; [|exact LL].
    intros e He. apply (md_flags _ _ _ _ _ _ M). exact He.
  - exists (set_giflags h (Z.lor (giflags h) 8)), adj. split; [reflexivity|]. split.
    { eapply rep_congr; [exact R|..]; reflexivity. }
    split; [exact EN2|]. split; [cbn; rewrite F2; reflexivity|]. split; [|exact LL].
    intros e He. apply (md_flags _ _ _ _ _ _ M). exact He.
Qed.

(** The line of some vertex after the first is missing, and all lines that follow. *)
Lemma read_cut_ok k n L fuel m : lists_ok n L -> 1 <= Z.of_nat m < n -> n <= 32768 -> (Z.to_nat n <= fuel)%nat ->
  exists h, _ReadAdjList fuel gp_New (mk k ([78; 61] ++ dec n ++ [10] ++ concat (map (adj_line 0 L) (zrange 1 m)))) = Ret (h, mk k [], C_NOTOK).
Proof.
  intros HL Hm Hn Hf. unfold _ReadAdjList. cbv zeta. cbn [app]. assert (Ho : off_ok 0) by (left; reflexivity).
  assert (Es : forall s, skip_char (skip_char (mk k (78 :: 61 :: s))) = mk k s) by (intros; destruct k; reflexivity).
  rewrite Es. set (C := Z.max (6 * n) (n * (n - 1))).
  assert (HC : n * (n - 1) <= C /\ 6 * n <= C /\ 2 * C <= INT_MAX) by (unfold C, INT_MAX; nia).
  assert (Hi : 1 <= n <= INT_MAX) by (unfold INT_MAX; lia).
  rewrite read_nat by (try lia; reflexivity). rewrite bind_ret. cbv beta iota. cbn [use bind].
  destruct (pre_init n C L HL ltac:(lia) ltac:(lia)) as (g & E & EN & EF & PI). rewrite E. cbn [C_OK Z.eqb Pos.eqb negb].
  assert (W : wp (for_up (Z.to_nat (gN g)) 1 (fun v g => gp_SetVertexVisitedInfo g v NIL) g)
     (fun g' => exists vi, g' = set_gVI g vi /\ forall u, 1 <= u <= n -> viVisited vi u = NIL)).
  { eapply wp_mono; [apply (for_up_inv (fun i g' => exists vi, g' = set_gVI g vi /\ forall u, 1 <= u < i -> viVisited vi u = NIL))|].
    - exists (gVI g). split; [destruct g; reflexivity|intros; lia].
    - intros j s Hj (vi & -> & Hvi). unfold gp_SetVertexVisitedInfo.
      rewrite guard_true by (unfold inVI, gp_PrimaryVertexIndexBound; cbn; lia). apply wp_ret.
      eexists. split; [reflexivity|]. intros u Hu. cbn. unfold upd. destruct (Z.eqb_spec u j); [reflexivity|]. apply Hvi. lia.
    - intros g' (vi & -> & Hvi). exists vi. split; [reflexivity|]. intros u Hu. apply Hvi. rewrite EN. lia. }
  destruct (wp_inv _ _ W) as (g1 & E1 & vi & G1 & Hvi). rewrite E1, bind_ret. subst g1. gsimp. rewrite EN.
  replace (if if k then true else true then skip_ws (10 :: concat (map (adj_line 0 L) (zrange 1 m)))
           else 10 :: concat (map (adj_line 0 L) (zrange 1 m)))
     with (concat (map (adj_line 0 L) (zrange 1 m))) by (destruct k; rewrite (lines_no_ws n L Hi); auto; lia).
  replace (Z.to_nat n) with (m + Datatypes.S (Z.to_nat n - m - 1))%nat by lia.
  destruct (read_lists_part n C L HL ltac:(lia) ltac:(lia) Hi k 0 fuel Ho Hf m (Datatypes.S (Z.to_nat n - m - 1)) 1 (set_gVI g vi) no_adj None None ltac:(lia) ltac:(lia) (PI vi Hvi))
    as (h & adj & idx & W2 & E2 & P & F2 & X).
  cbn [Z.eqb Pos.eqb] in E2. rewrite E2. replace (Z.of_nat m =? 0) with false in X by lia. subst idx.
  replace (1 + Z.of_nat m =? 1) with false by lia. cbn [read_lists].
  assert (ER : read_int false false false false (Some (1 + Z.of_nat m - 1)) (mk k []) = Ret (Some (1 + Z.of_nat m - 1), mk k [])) by (destruct k; reflexivity).
  rewrite ER, bind_ret. cbv beta iota. cbn [use bind]. rewrite andb_comm. replace (1 + Z.of_nat m =? 1) with false by lia. cbn [andb].
  unfold iadd. replace (int_ok _) with true by (unfold int_ok, INT_MAX in *; lia). cbn [guard bind].
  pose proof (md_N _ _ _ _ _ _ (pr_mid _ _ _ _ _ _ P)) as EN2.
  unfold gp_SetVertexIndex. rewrite guard_true by (apply inV_true; unfold is_vertex; lia). rewrite bind_ret.
  unfold gp_GetVertexIndex. rewrite guard_true by (apply inV_true; unfold is_vertex; cbn; lia). rewrite bind_ret.
  cbn [vindex set_vindex]. rewrite upd_same. replace (1 + Z.of_nat m - 1 + 0 =? 1 + Z.of_nat m) with false by lia. cbn [negb bind].
  eexists. reflexivity.
Qed.
