(** * IOP8: the adjacency matrix text. *)
From Coq Require Import ZifyBool Permutation.
From Verif Require Import Base BaseP GraphRec GraphM GraphSpec DFSSpec RandSpec GSimp LinkP GraphP GraphP2 GraphP3 GraphP4 GraphP5
  G6Spec G6P G6P3 RandP2 StrBufM StrFileM StrFileP DrawM ObsP3 IOSpec IOP IOP5 IOP6 IOM.

(** ** Rows as tables *)
Definition tab (F : Z -> Z) (m : nat) : list Z := map (fun i => F (Z.of_nat i)) (seq 0 m).
Lemma tab_length F m : length (tab F m) = m.
Proof. unfold tab. now rewrite map_length, seq_length. Qed.

Lemma m_set_tab x : forall m k F i, (i < m)%nat -> 
  m_set (map (fun j => F (Z.of_nat j)) (seq k m)) i x = map (fun j => upd F (Z.of_nat (k + i)) x (Z.of_nat j)) (seq k m).
Proof.
  induction m as [|m IH]; intros k F i Hi; [lia|]. cbn [seq map]. destruct i as [|i]; cbn [m_set].
  - f_equal.
    + rewrite Nat.add_0_r, upd_same. reflexivity.
    + apply map_ext_in. intros j Hj. apply in_seq in Hj. rewrite upd_other by lia. reflexivity.
  - f_equal.
    + rewrite upd_other by lia. reflexivity.
    + rewrite IH by lia. apply map_ext. intros j. replace (S k + i)%nat with (k + S i)%nat by lia. reflexivity.
Qed.
Lemma m_wr_tab F m i x : 0 <= i < Z.of_nat m -> m_wr (tab F m) i x = Ret (tab (upd F i x) m).
Proof.
  intros Hi. unfold m_wr. rewrite tab_length. replace ((i <? 0) || _) with false by lia. unfold tab. rewrite m_set_tab by lia.
  do 2 f_equal. cbn. replace (Z.of_nat (Z.to_nat i)) with i by lia. reflexivity.
Qed.
Lemma tab_ext F G m : (forall i, 0 <= i < Z.of_nat m -> F i = G i) -> tab F m = tab G m.
Proof. intros H. apply map_ext_in. intros j Hj. apply in_seq in Hj. apply H. lia. Qed.
Lemma list_tab l : tab (fun i => nth (Z.to_nat i) l 0) (length l) = l.
Proof.
  unfold tab. induction l as [|x l IH]; [reflexivity|]. cbn [length seq map]. f_equal.
  rewrite <- IH at 2. rewrite <- seq_shift, map_map. apply map_ext. intros j. rewrite !Nat2Z.id. reflexivity.
Qed.
Lemma tab_app F a b : tab F (a + b) = tab F a ++ tab (fun i => F (i + Z.of_nat a)) b.
Proof.
  unfold tab. rewrite seq_app, map_app. f_equal. cbn. rewrite <- (Nat.add_0_r a) at 1.
  rewrite <- (map_map (fun i => (a + i)%nat) (fun i => F (Z.of_nat i))) || idtac.
  clear. generalize 0%nat. induction b as [|b IH]; intros k; [reflexivity|]. cbn [seq map]. f_equal; [f_equal; lia|].
  replace (S (a + k))%nat with (a + S k)%nat by lia. apply IH.
Qed.

Lemma fill_ok m c : forall k i F, 1 <= i -> i + Z.of_nat k - 1 <= Z.of_nat m ->
  exists F', for_up k i (fun K row => m_wr row (K - 1) c) (tab F m) = Ret (tab F' m) /\
    forall x, F' x = if (i - 1 <=? x) && (x <? i - 1 + Z.of_nat k) then c else F x.
Proof.
  induction k as [|k IH]; intros i F Hi Hk; cbn [for_up].
  - exists F. split; [reflexivity|]. intros x. replace (_ && _) with false by lia. reflexivity.
  - rewrite m_wr_tab by lia. rewrite bind_ret. destruct (IH (i + 1) (upd F (i - 1) c) ltac:(lia) ltac:(lia)) as (F' & E & HF).
    exists F'. split; [exact E|]. intros x. rewrite HF. unfold upd. destruct (Z.eqb_spec x (i - 1)) as [->|N].
    + replace ((i - 1 <=? i - 1) && (i - 1 <? i - 1 + Z.of_nat (S k))) with true by lia. destruct (_ && _); reflexivity.
    + destruct ((i + 1 - 1 <=? x) && (x <? i + 1 - 1 + Z.of_nat k)) eqn:Q; [replace (_ && _) with true by lia|replace (_ && _) with false by lia]; reflexivity.
Qed.

Lemma row_arcs_ok g v m l : forall f F, (length l < f)%nat -> walks (enext g) l ->
  (forall e, In e l -> 2 <= e < gp_EdgeIndexBound g /\ Z.land (eflags g e) DIR_MASK = 0 /\ 1 <= enbr g e <= Z.of_nat m) ->
  exists F', row_arcs f g v (hd NIL l) (tab F m) = Ret (Some (tab F' m)) /\
    forall x, F' x = if (v <=? x) && existsb (fun e => enbr g e =? x + 1) l then 49 else F x.
Proof.
  induction l as [|e l IH]; intros f F Hf HW HR; (destruct f as [|f]; [cbn [length] in Hf; lia|]); cbn [row_arcs hd].
  - rewrite Z.eqb_refl. exists F. split; [reflexivity|]. intros x. cbn [existsb]. rewrite andb_false_r. reflexivity.
  - destruct (HR e (or_introl eq_refl)) as (R1 & R2 & R3). replace (e =? NIL) with false by (unfold NIL; lia).
    unfold gp_GetDirection. rewrite rd_eflags_ok by (apply inE_true; lia). rewrite !bind_ret, R2.
    change (0 =? DIR_INONLY) with false. cbv iota.
    rewrite get_nbr by (apply inE_true; lia). rewrite !bind_ret. destruct HW as [W1 W2].
    set (F1 := if v <? enbr g e then upd F (enbr g e - 1) 49 else F).
    assert (E1 : (if v <? enbr g e then m_wr (tab F m) (enbr g e - 1) 49 else Ret (tab F m)) = Ret (tab F1 m)).
    { unfold F1. destruct (v <? enbr g e); [apply m_wr_tab; lia|reflexivity]. }
    rewrite E1, bind_ret. rewrite get_next by (apply inE_true; lia). rewrite bind_ret, W1.
    destruct (IH f F1) as (F' & E & HF); [cbn [length] in Hf; lia|exact W2|intros x Hx; apply HR; right; exact Hx|].
    exists F'. split; [exact E|]. intros x. rewrite HF. cbn [existsb]. unfold F1. destruct (v <=? x) eqn:Q; cbn [andb].
    + destruct (existsb _ l); [rewrite orb_true_r; reflexivity|]. rewrite orb_false_r.
      destruct (v <? enbr g e) eqn:Q2.
      * unfold upd. destruct (Z.eqb_spec x (enbr g e - 1)); [replace (enbr g e =? x + 1) with true by lia|replace (enbr g e =? x + 1) with false by lia]; reflexivity.
      * replace (enbr g e =? x + 1) with false by lia. reflexivity.
    + destruct (v <? enbr g e) eqn:Q2; [|reflexivity]. rewrite upd_other by lia. reflexivity.
Qed.

Definition adj_mat (g : graph) (adj : Z -> list Z) (u v : Z) : bool := existsb (fun e => enbr g e =? v) (adj u).

Lemma row_text n (A : Z -> Z -> bool) v F : 1 <= v <= n ->
  (forall x, 0 <= x <= n + 1 -> F x = if x <? v then 32 else if x <? n then (if A v (x + 1) then 49 else 48) else if x =? n then 10 else 0) ->
  tab F (Z.to_nat (n + 2)) = mat_row n A v ++ [0].
Proof.
  intros Hv HF. replace (Z.to_nat (n + 2)) with (Z.to_nat v + (Z.to_nat (n - v) + 2))%nat by lia.
  rewrite !tab_app. unfold mat_row. rewrite <- !app_assoc. f_equal; [|f_equal].
  - transitivity (tab (fun _ => 32) (Z.to_nat v)).
    + apply tab_ext. intros i Hi. rewrite HF by lia. replace (i <? v) with true by lia. reflexivity.
    + unfold tab. generalize 0%nat. induction (Z.to_nat v) as [|k IH]; intros j; [reflexivity|]. cbn [seq map repeat]. f_equal. apply IH.
  - transitivity (tab (fun i => if A v (v + 1 + i) then 49 else 48) (Z.to_nat (n - v))).
    + apply tab_ext. intros i Hi. rewrite HF by lia. replace (i + _ <? v) with false by lia. replace (i + _ <? n) with true by lia.
      match goal with |- (if A v ?a then _ else _) = (if A v ?b then _ else _) => replace a with b by lia end. reflexivity.
    + unfold tab, from. rewrite map_map. apply map_ext. intros j. reflexivity.
  - cbn [tab seq map]. unfold tab. cbn [seq map]. rewrite !HF by lia.
    replace (_ <? v) with false by lia. replace (_ <? n) with false by lia. replace (_ =? n) with true by lia.
    replace (_ <? v) with false by lia. replace (_ <? n) with false by lia. replace (_ =? n) with false by lia. reflexivity.
Qed.

Lemma mat_row_nz n A v x : In x (mat_row n A v) -> x <> 0.
Proof.
  unfold mat_row. rewrite !in_app_iff. intros [H|[H|[<-|[]]]]; [apply repeat_spec in H; lia| |lia].
  apply in_map_iff in H. destruct H as (w & <- & _). destruct (A v w); lia.
Qed.

Lemma write_rows_ok g adj : rep g adj -> primary_edges g adj -> undirected g adj ->
  forall k v row, 1 <= v -> v + Z.of_nat k = gN g + 1 -> length row = Z.to_nat (gN g + 2) ->
  write_rows k g v row = Ret (concat (map (mat_row (gN g) (adj_mat g adj)) (zrange v k)), C_OK).
Proof.
  intros R PE U. pose proof (rep_chains _ _ R) as Ch. pose proof (st_N _ _ (rep_storage _ _ R)) as HN.
  induction k as [|k IH]; intros v row Hv Hk Hl; [reflexivity|]. cbn [write_rows].
  rewrite <- (list_tab row), Hl. set (m := Z.to_nat (gN g + 2)) in *.
  destruct (fill_ok m 32 (Z.to_nat v) 1 (fun i => nth (Z.to_nat i) row 0) ltac:(lia) ltac:(lia)) as (F1 & E1 & H1). rewrite E1, bind_ret.
  destruct (fill_ok m 48 (Z.to_nat (gN g - v)) (v + 1) F1 ltac:(lia) ltac:(lia)) as (F2 & E2 & H2). rewrite E2, bind_ret.
  assert (Vv : is_vertex g v) by (unfold is_vertex; lia).
  rewrite get_first by (apply inV_true; auto). rewrite bind_ret, (ch_first _ _ Ch) by auto.
  destruct (row_arcs_ok g v m (adj v) (efuel g) F2) as (F3 & E3 & H3).
  { exact (adj_len _ _ v Ch). }
  { apply chains_walks with (1 := Ch). }
  { intros e He. split; [exact (ch_range _ _ Ch _ _ He)|]. split; [exact (U _ _ He)|].
    destruct (rep_twins _ _ R _ _ He) as [_ T2]. pose proof (PE _ _ T2) as P2. unfold primary in P2. lia. }
  rewrite E3, bind_ret. cbv iota. rewrite m_wr_tab by lia. rewrite bind_ret. rewrite m_wr_tab by lia. rewrite bind_ret.
  assert (ET : tab (upd (upd F3 (gN g) 10) (gN g + 1) 0) m = mat_row (gN g) (adj_mat g adj) v ++ [0]).
  { apply row_text; [lia|]. intros x Hx. unfold upd. destruct (Z.eqb_spec x (gN g + 1)) as [->|Nx].
    { replace (gN g + 1 <? v) with false by lia. replace (gN g + 1 <? gN g) with false by lia. replace (gN g + 1 =? gN g) with false by lia. reflexivity. }
    destruct (Z.eqb_spec x (gN g)) as [->|Ny].
    { replace (gN g <? v) with false by lia. replace (gN g <? gN g) with false by lia. reflexivity. }
    rewrite H3, H2, H1. unfold adj_mat. destruct (x <? v) eqn:Q.
    - replace (v <=? x) with false by lia. cbn [andb]. replace ((v + 1 - 1 <=? x) && _) with false by lia. replace (_ && _) with true by lia. reflexivity.
    - replace (x <? gN g) with true by lia. replace (v <=? x) with true by lia. cbn [andb]. destruct (existsb _ _); [reflexivity|].
      replace (_ && _) with true by lia. reflexivity. }
  rewrite ET. rewrite c_str_app by apply mat_row_nz. rewrite bind_ret.
  rewrite IH; [|lia|lia|rewrite <- ET; apply tab_length]. rewrite bind_ret. rewrite zrange_S. reflexivity.
Qed.

Lemma write_mat_ok g adj junk : rep g adj -> primary_edges g adj -> undirected g adj -> Z.of_nat (length junk) = gN g + 2 ->
  _WriteAdjMatrix junk g = Ret (mat_text (gN g) (adj_mat g adj), C_OK).
Proof.
  intros R PE U HJ. pose proof (st_N _ _ (rep_storage _ _ R)). unfold _WriteAdjMatrix. rewrite guard_true by lia.
  rewrite (write_rows_ok g adj R PE U) by lia. reflexivity.
Qed.

(** ** Reading *)
Lemma read_flag k cur s d rest : d = 0 \/ d = 1 -> skip_ws s = (48 + d) :: rest -> k = true \/ no_digit rest ->
  read_int true true false false cur (mk k s) = Ret (Some d, mk k rest).
Proof.
  intros Hd Hs Hk. destruct k; cbn [mk read_int].
  - unfold scan_d. rewrite Hs. destruct Hd as [->| ->]; reflexivity.
  - assert (E : scan_d 1 (skip_ws s) = Ret (Some d, rest)).
    { unfold scan_d. rewrite skip_ws_idem, Hs. destruct Hd as [->| ->]; reflexivity. }
    rewrite E, bind_ret. cbv beta iota. rewrite Hs. destruct Hk as [|Hk]; [discriminate|].
    assert (E2 : skip_integer ((48 + d) :: rest) = rest).
    { unfold skip_integer. destruct Hd as [->| ->]; [change (48 + 0) with 48|change (48 + 1) with 49];
        (destruct rest as [|r rest]; [reflexivity|]; cbn in Hk; cbn [skip_digits]; cbn [c_isdigit Z.leb Z.compare Pos.compare Pos.compare_cont andb]; rewrite Hk; reflexivity). }
    rewrite E2. reflexivity.
Qed.

Section Mat.
Variables (n C : Z) (A : Z -> Z -> bool).
Hypothesis HnC : n * (n - 1) <= C.
Hypothesis HCI : 2 * C <= INT_MAX.

(** The pairs before (v, w) in reading order have been added. *)
Definition seen (v w x y : Z) : Prop := x < v \/ (x = v /\ y < w).
Record minv (v w : Z) (g : graph) : Prop := {
  mv_M : 2 * gM g <= (v - 1) * (2 * n - v) + 2 * (w - v - 1);
  mv_fl : giflags g = 0;
  mv_adj : exists adj, ready g adj n C /\
     forall x y, 1 <= x < y -> y <= n -> (adjacent g adj x y <-> A x y = true /\ seen v w x y) }.

Definition flags (v w : Z) (m : nat) : list Z := map (fun y => if A v y then 49 else 48) (zrange w m).

Lemma matrix_row_ok k v : k = true \/ n <= 2 -> 1 <= v ->
  forall m w g flag s rest, v < w -> w + Z.of_nat m = n + 1 -> minv v w g -> skip_ws s = skip_ws (flags v w m ++ 10 :: rest) ->
  exists g' flag' s', matrix_row m v w g flag (mk k s) = Ret (g', flag', mk k s', true) /\ minv v (n + 1) g' /\
    skip_ws s' = skip_ws (10 :: rest).
Proof.
  intros Hk Hv. induction m as [|m IH]; intros w g flag s rest Hw Hm I Hs; cbn [matrix_row].
  - exists g, flag, s. split; [reflexivity|]. split; [|exact Hs]. replace (n + 1) with w by lia. exact I.
  - unfold flags in Hs. rewrite zrange_S in Hs. cbn [map app] in Hs. fold (flags v (w + 1) m) in Hs.
    set (d := if A v w then 1 else 0).
    assert (Ed : skip_ws s = (48 + d) :: (flags v (w + 1) m ++ 10 :: rest)).
    { rewrite Hs. unfold d. destruct (A v w); reflexivity. }
    rewrite (read_flag k flag s d (flags v (w + 1) m ++ 10 :: rest)).
    2:{ unfold d. destruct (A v w); auto. }
    2:{ exact Ed. }
    2:{ destruct Hk as [->|Hk]; [left; reflexivity|right]. replace m with 0%nat by lia. reflexivity. }
    rewrite bind_ret. cbv beta iota. cbn [use bind].
    destruct I as [IM IF (adj & Rd & HA)].
    assert (NA : ~ adjacent g adj v w) by (rewrite HA by lia; unfold seen; lia).
    unfold d. destruct (A v w) eqn:EA; cbn [Z.eqb negb].
    + assert (HM : 2 * gM g < n * (n - 1)) by nia.
      destruct (dyn_missing g adj n C v w Rd HnC HCI ltac:(lia) ltac:(lia) ltac:(lia) NA HM) as (g' & adj' & E & Rd' & M' & F' & A').
      rewrite E, bind_ret. cbv beta iota. cbn [C_OK Z.eqb Pos.eqb negb].
      apply IH with (rest := rest); [lia|lia| |reflexivity]. constructor; [lia|congruence|]. exists adj'. split; [exact Rd'|].
      intros x y Hx Hy. rewrite A', HA by auto. unfold seen. split.
      * intros [[H1 H2]|[[-> ->]|[-> ->]]]; [split; [exact H1|lia]|split; [exact EA|lia]|lia].
      * intros [H1 H2]. destruct (Z.eq_dec x v) as [->|]; [destruct (Z.eq_dec y w) as [->|]; [auto|]|]; left; split; auto; lia.
    + apply IH with (rest := rest); [lia|lia| |reflexivity]. constructor; [lia|exact IF|]. exists adj. split; [exact Rd|].
      intros x y Hx Hy. rewrite HA by auto. unfold seen. split.
      * intros [H1 H2]. split; [exact H1|lia].
      * intros [H1 H2]. split; [exact H1|]. destruct (Z.eq_dec x v) as [->|]; [destruct (Z.eq_dec y w) as [->|]; [congruence|]|]; lia.
Qed.

Lemma ready_index g adj x : ready g adj n C -> ready (set_vindex g x) adj n C.
Proof.
  intros [(R & S & P) H1 H2 H3 H4]. constructor; auto. split; [|split; auto]. eapply rep_congr; [exact R|..]; reflexivity.
Qed.

Lemma skip_blanks k t : skip_ws (repeat 32 k ++ t) = skip_ws t.
Proof. induction k as [|k IH]; [reflexivity|]. exact IH. Qed.

Lemma matrix_rows_ok k : k = true \/ n <= 2 ->
  forall m v g flag s, 1 <= v -> v + Z.of_nat m = n + 1 -> minv v (v + 1) g ->
  skip_ws s = skip_ws (concat (map (mat_row n A) (zrange v m))) ->
  exists g' s', matrix_rows m v g flag (mk k s) = Ret (g', mk k s', C_OK) /\ minv (n + 1) (n + 2) g'.
Proof.
  intros Hk. induction m as [|m IH]; intros v g flag s Hv Hm I Hs; cbn [matrix_rows].
  - exists g, s. split; [reflexivity|]. replace (n + 1) with v by lia. replace (n + 2) with (v + 1) by lia. exact I.
  - rewrite zrange_S in Hs. cbn [map concat] in Hs. set (rest := concat _) in Hs.
    unfold mat_row in Hs. rewrite <- !app_assoc, skip_blanks in Hs. cbn [app] in Hs.
    destruct I as [IM IF (adj & Rd & HA)]. pose proof (rd_N _ _ _ _ Rd) as EN.
    unfold gp_SetVertexIndex. rewrite guard_true by (apply inV_true; unfold is_vertex; lia). rewrite bind_ret.
    set (g0 := set_vindex g _).
    assert (I0 : minv v (v + 1) g0).
    { constructor; [exact IM|exact IF|]. exists adj. split; [apply ready_index; exact Rd|exact HA]. }
    change (gN g0) with (gN g). rewrite EN.
    destruct (matrix_row_ok k v Hk Hv (Z.to_nat (n - v)) (v + 1) g0 flag s rest ltac:(lia) ltac:(lia) I0 Hs) as (g1 & flag1 & s1 & E1 & I1 & H1).
    rewrite E1, bind_ret. cbv beta iota.
    apply IH; [lia|lia| |exact H1].
    destruct I1 as [IM1 IF1 (adj1 & Rd1 & HA1)]. constructor; [nia|exact IF1|]. exists adj1. split; [exact Rd1|].
    intros x y Hx Hy. rewrite HA1 by auto. unfold seen. split; intros [H2 H3]; (split; [exact H2|lia]).
Qed.
End Mat.

Lemma init_ready n C : 1 <= n -> 6 * n <= C ->
  exists g, gp_InitGraph gp_New n = (g, C_OK) /\ ready g no_adj n C /\ giflags g = 0 /\ gM g = 0.
Proof.
  intros Hn HC.
  destruct (wp_inv _ _ (fresh_ok 0 n Hn)) as (g & E & R & EN & Cl & Es & Ec).
  assert (Eg : gp_InitGraph gp_New n = (g, C_OK)).
  { unfold fresh_graph in E. cbn in E. unfold gp_InitGraph in *. replace (n <=? 0) with false in * by lia. cbn [gN gp_New Z.eqb negb] in *.
    unfold _InitGraph in *. cbv zeta in *. cbn [fst] in E. injection E as <-. reflexivity. }
  assert (Fs : gM g = 0 /\ giflags g = 0 /\ 0 <= gstackCap g).
  { unfold gp_InitGraph in Eg. replace (n <=? 0) with false in Eg by lia. cbn [gN gp_New Z.eqb negb] in Eg. unfold _InitGraph in Eg.
    cbv zeta in Eg. injection Eg as <-. repeat split. cbn. destruct (_ <? _) eqn:Q; lia. }
  destruct Fs as (F1 & F2 & F3). exists g. split; [exact Eg|]. split; [|auto]. cbn [andb Z.ltb Z.compare] in Ec.
  constructor; [|exact EN|exact Es|exact F3|lia]. split; [exact R|]. split; [|intros v e []].
  split; [intros v e []|intros v e f []].
Qed.

Lemma read_mat_ok k n A : 1 <= n <= 32768 -> k = true \/ n <= 2 ->
  exists h s, _ReadAdjMatrix gp_New (mk k (mat_text n A)) = Ret (h, mk k s, C_OK) /\ is_graph h n A /\ giflags h = 0.
Proof.
  intros Hn Hk. unfold _ReadAdjMatrix. set (C := Z.max (6 * n) (n * (n - 1))).
  assert (HC : n * (n - 1) <= C /\ 6 * n <= C /\ 2 * C <= INT_MAX) by (unfold C, INT_MAX; nia).
  change (mat_text n A) with (dec n ++ 10 :: concat (map (mat_row n A) (zrange 1 (Z.to_nat n)))).
  rewrite read_nat by (try reflexivity; unfold INT_MAX; lia). rewrite bind_ret. cbv beta iota. cbn [use bind].
  destruct (init_ready n C ltac:(lia) ltac:(lia)) as (g & E & Rd & F & M). rewrite E. cbn [C_OK Z.eqb Pos.eqb negb].
  rewrite (rd_N _ _ _ _ Rd).
  replace (if if k then true else true then skip_ws (10 :: concat (map (mat_row n A) (zrange 1 (Z.to_nat n)))) else 10 :: concat (map (mat_row n A) (zrange 1 (Z.to_nat n))))
    with (skip_ws (10 :: concat (map (mat_row n A) (zrange 1 (Z.to_nat n))))) by (destruct k; reflexivity).
  destruct (matrix_rows_ok n C A ltac:(lia) ltac:(lia) k Hk (Z.to_nat n) 1 g None (skip_ws (10 :: concat (map (mat_row n A) (zrange 1 (Z.to_nat n)))))) as (h & s & Eh & [IM IF (adj & Rh & HA)]).
  - lia.
  - lia.
  - constructor; [rewrite M; nia|exact F|]. exists no_adj. split; [exact Rd|]. intros x y Hx Hy. unfold seen. split; [intros (e & [] & _)|lia].
  - rewrite skip_ws_idem. reflexivity.
  - exists h, s. split; [exact Eh|]. split; [|exact IF]. split; [exact (rd_N _ _ _ _ Rh)|]. exists adj. split; [exact (rd_sg _ _ _ _ Rh)|].
    intros u v Hu Hv. rewrite HA by auto. unfold seen. split; [intros H; split; [exact H|lia]|tauto].
Qed.

Lemma get_digit_line c s : c <> 10 -> exists t r, get_line None (c :: s) = (Some (c :: t), r).
Proof.
  intros Hc. unfold get_line. change (fgets_take 254 (c :: s)) with
    (if c =? CH_LF then ([c], s) else let '(t, r) := fgets_take 253 s in (c :: t, r)).
  replace (c =? CH_LF) with false by (unfold CH_LF; lia). destruct (fgets_take 253 s) as [t r]. eauto.
Qed.

Lemma mat_trip_gen n A fuel : 1 <= n <= 32768 ->
  (exists h, gp_Read fuel gp_New (mat_text n A) = Ret (h, C_OK) /\ is_graph h n A /\ zero_based h = false) /\
  (n <= 2 -> exists h, gp_ReadFromString fuel gp_New (mat_text n A) = Ret (h, C_OK) /\ is_graph h n A /\ zero_based h = false).
Proof.
  intros Hn.
  assert (HD : exists c t, mat_text n A = c :: t /\ c_isdigit c = true).
  { destruct (dec_val n) as (ds & E1 & E2 & E3 & _); [unfold INT_MAX; lia|]. unfold mat_text. rewrite E1. destruct ds as [|c ds]; [congruence|].
    eexists. eexists. split; [reflexivity|]. apply E3. left. reflexivity. }
  destruct HD as (c & t & Et & Hc).
  assert (Q1 : forall u, starts_with leda_tag (c :: u) = false).
  { intros u. unfold leda_tag. cbn [starts_with]. replace (76 =? c) with false by (unfold c_isdigit in Hc; lia). reflexivity. }
  assert (Q2 : forall u, starts_with list_tag (c :: u) = false).
  { intros u. unfold list_tag. cbn [starts_with]. replace (78 =? c) with false by (unfold c_isdigit in Hc; lia). reflexivity. }
  split.
  - destruct (read_mat_ok true n A Hn (or_introl eq_refl)) as (h & s & E & I & F). exists h. split; [|split; [exact I|unfold zero_based; rewrite F; reflexivity]].
    unfold gp_Read. rewrite Et. destruct (get_digit_line c t) as (u & r & Eg); [unfold c_isdigit in Hc; lia|].
    rewrite Eg. cbn [fst line_text bind]. rewrite Q1, Q2. cbn [hd]. rewrite Hc. rewrite <- Et. cbn [mk] in E. rewrite E. reflexivity.
  - intros H2. destruct (read_mat_ok false n A Hn (or_intror H2)) as (h & s & E & I & F). exists h. split; [|split; [exact I|unfold zero_based; rewrite F; reflexivity]].
    unfold gp_ReadFromString. rewrite Et, Q1, Q2. cbn [hd]. rewrite Hc. rewrite <- Et. cbn [mk] in E. rewrite E. reflexivity.
Qed.

Lemma adj_mat_adjacent g adj u v : adj_mat g adj u v = true <-> adjacent g adj u v.
Proof.
  unfold adj_mat, adjacent. rewrite existsb_exists. split; intros (e & H1 & H2); exists e; (split; [exact H1|]); lia.
Qed.

(** The graph that was read has the adjacencies of the one that was written. *)
Lemma same_adjacent g adj h : rep g adj -> simple g adj -> primary_edges g adj -> is_graph h (gN g) (adj_mat g adj) ->
  exists adj', simple_graph h adj' /\ gN h = gN g /\ forall u v, adjacent h adj' u v <-> adjacent g adj u v.
Proof.
  intros R Si PE (EN & adj' & SG & HA). exists adj'. split; [exact SG|]. split; [exact EN|].
  assert (SY : forall g adj, rep g adj -> forall u v, adjacent g adj u v -> adjacent g adj v u).
  { intros g0 a0 R0 u v (e & He & <-). destruct (rep_twins _ _ R0 _ _ He) as [T1 T2]. exists (twin e). auto. }
  assert (RG : forall g adj, rep g adj -> primary_edges g adj -> forall u v, adjacent g adj u v -> 1 <= u <= gN g /\ 1 <= v <= gN g).
  { intros g0 a0 R0 P0 u v (e & He & <-). destruct (rep_twins _ _ R0 _ _ He) as [T1 T2]. pose proof (P0 _ _ He). pose proof (P0 _ _ T2). unfold primary in *. lia. }
  assert (LP : forall g adj, simple g adj -> forall u, ~ adjacent g adj u u).
  { intros g0 a0 [S1 _] u (e & He & E). exact (S1 _ _ He E). }
  destruct SG as (R' & S' & P'). intros u v. split; intros H.
  - pose proof (RG _ _ R' P' _ _ H) as [H1 H2]. rewrite EN in *. destruct (Z.lt_trichotomy u v) as [Lt|[->|Lt]].
    + apply adj_mat_adjacent. apply HA; auto; lia.
    + destruct (LP _ _ S' _ H).
    + apply (SY _ _ R). apply adj_mat_adjacent. apply HA; [lia|lia|]. apply (SY _ _ R'). exact H.
  - pose proof (RG _ _ R PE _ _ H) as [H1 H2]. destruct (Z.lt_trichotomy u v) as [Lt|[->|Lt]].
    + apply HA; [lia|lia|]. apply adj_mat_adjacent. exact H.
    + destruct (LP _ _ Si _ H).
    + apply (SY _ _ R'). apply HA; [lia|lia|]. apply adj_mat_adjacent. apply (SY _ _ R). exact H.
Qed.
