(** * IOP9: proofs about LEDA files. *)
From Coq Require Import ZifyBool Permutation.
From Verif Require Import Base BaseP GraphRec GraphM GraphSpec GSimp LinkP GraphP GraphP2 GraphP3 GraphP4 GraphP5 MoveP DFSSpec RandSpec RandP RandP2 G6Spec G6P G6P3
  StrBufM StrFileM DrawM EmbP TestP IOM IOSpec IOP IOP2 IOP3 IOP5 IOP6 IOP8.

Lemma get_plain l0 l s : plain_line l -> get_line l0 (ended l ++ s) = (Some (ended l), s).
Proof.
  intros [H1 H2]. unfold get_line, ended. rewrite <- app_assoc. cbn [app].
  assert (K : forall k, (length l < k)%nat -> fgets_take k (l ++ 10 :: s) = (l ++ [10], s)).
  { clear H2. induction l as [|c l IH]; intros k Hk; (destruct k as [|k]; [cbn in Hk; lia|]); cbn [app fgets_take]; [reflexivity|].
    replace (c =? CH_LF) with false by (unfold CH_LF; cbn [In] in H1; lia). cbn [length] in Hk. rewrite IH; [reflexivity| |lia].
    intros H. apply H1. right. exact H. }
  rewrite K by lia. destruct l; reflexivity.
Qed.

Lemma skip_plain ls : Forall plain_line ls -> forall l0 s, ls <> [] ->
  skip_lines (length ls) l0 (concat (map ended ls) ++ s) = (Some (ended (last ls [])), s).
Proof.
  induction 1 as [|l ls P _ IH]; intros l0 s Hne; [congruence|]. cbn [length skip_lines map concat]. rewrite <- app_assoc, get_plain by exact P.
  destruct ls as [|l2 ls]; [reflexivity|]. rewrite IH by discriminate. reflexivity.
Qed.
Lemma skip_plain_any ls : Forall plain_line ls -> forall l0 s,
  exists l1, skip_lines (length ls) l0 (concat (map ended ls) ++ s) = (l1, s).
Proof.
  induction 1 as [|l ls P _ IH]; intros l0 s; [exists l0; reflexivity|]. cbn [length skip_lines map concat]. rewrite <- app_assoc, get_plain by exact P.
  apply IH.
Qed.

Lemma after_no_digit t s : after_number t -> no_digit ((t ++ [10]) ++ s).
Proof. destruct t as [|c t]; cbn; [reflexivity|]. unfold c_isdigit. lia. Qed.
Lemma after_no_digit' t : after_number t -> no_digit (t ++ [10]).
Proof. intros H. rewrite <- (app_nil_r (t ++ [10])). apply after_no_digit. exact H. Qed.

Lemma scan_line n t : 0 <= n <= INT_MAX -> after_number t -> exists r, scan_int (ended (dec n ++ t)) = Ret (Some n, r).
Proof.
  intros Hn Ht. eexists. unfold ended. rewrite <- app_assoc. apply scan_int_nat; [exact Hn|]. apply after_no_digit'. exact Ht.
Qed.

Lemma scan_edge_line a b t u v : 0 <= a <= INT_MAX -> 0 <= b <= INT_MAX -> after_number t ->
  scan_pair (ended (edge_line (a, b, t))) u v = Ret (Some a, Some b).
Proof.
  intros Ha Hb Ht. unfold scan_pair, edge_line, ended. cbn [fst snd]. rewrite <- !app_assoc.
  rewrite scan_int_nat; [|exact Ha|reflexivity]. rewrite bind_ret. cbv beta iota. cbn [app].
  unfold scan_int. rewrite scan_d_space.
  rewrite scan_d_nat; [reflexivity|exact Hb|apply after_no_digit'; exact Ht|]. cbn [length]. rewrite app_length. lia.
Qed.

Section Leda.
Variables (n C : Z).
Hypothesis HnC : n * (n - 1) <= C.
Hypothesis HCI : 2 * C <= INT_MAX.
Hypothesis Hn : 1 <= n.

Definition linked_by (E : list (Z * Z)) (x y : Z) : Prop := x <> y /\ (In (x, y) E \/ In (y, x) E).
Record linv (g : graph) (adj : Z -> list Z) (E : list (Z * Z)) : Prop := {
  lv_mid : mid n C g adj 0 [];
  lv_nodup : forall x, NoDup (map (enbr g) (adj x));
  lv_adj : forall x y, In y (map (enbr g) (adj x)) <-> linked_by E x y;
  lv_pairs : exists P, NoDup P /\ Z.of_nat (length P) = gM g /\
     forall x y, In (x, y) P <-> x < y /\ In y (map (enbr g) (adj x)) }.

Definition in_range (E : list (Z * Z)) : Prop := Forall (fun p => 1 <= fst p <= n /\ 1 <= snd p <= n) E.

Lemma leda_edge E g adj a b : in_range E -> 1 <= a <= n -> 1 <= b <= n -> a <> b -> linv g adj E ->
  ~ linked_by E a b ->
  exists g' adj', gp_DynamicAddEdge g a 0 b 0 = Ret (g', C_OK) /\ linv g' adj' (E ++ [(a, b)]) /\ giflags g' = giflags g.
Proof.
  intros RE Ha Hb Hab I NL. destruct (lv_pairs _ _ _ I) as (P & P1 & P2 & P3).
  assert (RL : forall x y, linked_by E x y -> 1 <= x <= n /\ 1 <= y <= n).
  { intros x y (_ & [H|H]); apply (proj1 (Forall_forall _ _) RE) in H; cbn [fst snd] in H; lia. }
  assert (NLr : ~ linked_by E b a) by (intros [H1 H2]; apply NL; split; [auto|tauto]).
  set (q := (Z.min a b, Z.max a b)).
  assert (NP : NoDup (q :: P)).
  { constructor; auto. intros H. apply P3 in H. destruct H as [H1 H2]. apply (lv_adj _ _ _ I) in H2.
    destruct (Z.min_spec a b) as [[L M]|[L M]], (Z.max_spec a b) as [[L' M']|[L' M']]; rewrite M, M' in *; try lia; auto. }
  assert (PR : forall x y, In (x, y) (q :: P) -> 1 <= x < y /\ y <= n).
  { intros x y [H|H]; [injection H as <- <-; lia|]. apply P3 in H. destruct H as [H1 H2]. apply (lv_adj _ _ _ I) in H2.
    destruct (RL _ _ H2). lia. }
  assert (HM : 2 * gM g < n * (n - 1)).
  { pose proof (pairs_bound n (q :: P) ltac:(lia) NP PR) as K. cbn [length] in K. lia. }
  destruct (dyn_mid n C g adj 0 [] a b (lv_mid _ _ _ I) HnC HCI Ha Hb Hab HM) as (g' & E' & M' & EA).
  cbv zeta in M', EA. set (k := 2 * gM g + 3) in *. set (adj' := upd (upd adj a (k :: adj a)) b (twin k :: adj b)) in *.
  assert (Old : forall w e, In e (adj w) -> enbr g' e = enbr g e).
  { intros w e H. apply (ea_old _ _ _ _ _ EA). apply (md_own _ _ _ _ _ _ (lv_mid _ _ _ I) w e). left. exact H. }
  assert (OldM : forall w, map (enbr g') (adj w) = map (enbr g) (adj w)).
  { intros w. apply map_ext_in. intros e He. eapply Old. exact He. }
  assert (Aw : forall w, w <> a -> w <> b -> map (enbr g') (adj' w) = map (enbr g) (adj w)).
  { intros w H1 H2. unfold adj'. rewrite !upd_other by auto. apply OldM. }
  assert (Aa : map (enbr g') (adj' a) = b :: map (enbr g) (adj a)).
  { unfold adj'. rewrite upd_other by lia. rewrite upd_same. cbn [map]. rewrite (ea_a _ _ _ _ _ EA), OldM. reflexivity. }
  assert (Ab : map (enbr g') (adj' b) = a :: map (enbr g) (adj b)).
  { unfold adj'. rewrite upd_same. cbn [map]. rewrite (ea_ta _ _ _ _ _ EA), OldM. reflexivity. }
  assert (AD : forall x y, In y (map (enbr g') (adj' x)) <-> linked_by (E ++ [(a, b)]) x y).
  { intros x y. unfold linked_by. rewrite !in_app_iff. cbn [In].
    assert (Q : In y (map (enbr g') (adj' x)) <-> linked_by E x y \/ (x = a /\ y = b) \/ (x = b /\ y = a)).
    { destruct (Z.eq_dec x a) as [->|Nxa]; [|destruct (Z.eq_dec x b) as [->|Nxb]].
      - rewrite Aa. cbn [In]. rewrite (lv_adj _ _ _ I). intuition lia.
      - rewrite Ab. cbn [In]. rewrite (lv_adj _ _ _ I). intuition lia.
      - rewrite Aw by auto. rewrite (lv_adj _ _ _ I). intuition lia. }
    rewrite Q. unfold linked_by. split.
    - intros [[H1 H2]|[[-> ->]|[-> ->]]]; (split; [lia|]); tauto.
    - intros [H1 H2]. destruct H2 as [[H2|[H2|[]]]|[H2|[H2|[]]]]; auto; injection H2 as -> ->; auto. }
  exists g', adj'. split; [exact E'|]. split; [|apply EA]. constructor; auto.
  - intros x. destruct (Z.eq_dec x a) as [->|Nxa]; [|destruct (Z.eq_dec x b) as [->|Nxb]].
    + rewrite Aa. constructor; [|apply (lv_nodup _ _ _ I)]. rewrite (lv_adj _ _ _ I). exact NL.
    + rewrite Ab. constructor; [|apply (lv_nodup _ _ _ I)]. rewrite (lv_adj _ _ _ I). exact NLr.
    + rewrite Aw by auto. apply (lv_nodup _ _ _ I).
  - exists (q :: P). split; [exact NP|]. split; [cbn [length]; rewrite (ea_M _ _ _ _ _ EA); lia|].
    intros x y. rewrite AD. cbn [In]. rewrite P3, (lv_adj _ _ _ I). unfold linked_by. rewrite !in_app_iff. cbn [In]. unfold q. split.
    + intros [H|(H1 & H2 & H3)]; [injection H as <- <-|split; [exact H1|split; [exact H2|tauto]]].
      destruct (Z.min_spec a b) as [[L M]|[L M]], (Z.max_spec a b) as [[L' M0]|[L' M0]]; rewrite M, M0; try lia; (split; [lia|]; split; [lia|]; tauto).
    + intros (H1 & H2 & H3). destruct H3 as [[H3|[H3|[]]]|[H3|[H3|[]]]]; [tauto| |tauto|]; left; injection H3 as -> ->; f_equal; lia.
Qed.

Lemma leda_skip E g adj a b : linv g adj E -> a = b \/ linked_by E a b -> linv g adj (E ++ [(a, b)]).
Proof.
  intros [M ND AD PP] H. constructor; auto. intros x y. rewrite AD. unfold linked_by in *. rewrite !in_app_iff. cbn [In]. split.
  - intros (H1 & H2). split; [auto|tauto].
  - intros (H1 & H2). split; [exact H1|]. destruct H2 as [[H2|[H2|[]]]|[H2|[H2|[]]]]; auto; injection H2 as -> ->; destruct H as [->|[_ H]]; try congruence; tauto.
Qed.

Lemma leda_edges_ok es : Forall plain_line (map edge_line es) -> Forall (fun p => after_number (snd p)) es ->
  forall E g adj u v l more, in_range (E ++ map fst es) -> n <= INT_MAX -> linv g adj E ->
  exists g' adj', leda_edges (length es) g u v l (concat (map ended (map edge_line es)) ++ more) = Ret (g', C_OK) /\
    linv g' adj' (E ++ map fst es) /\ giflags g' = giflags g.
Proof.
  induction es as [|[[a b] t] es IH]; intros HP HT E g adj u v l more HR Hi I; cbn [length leda_edges map concat].
  - exists g, adj. rewrite app_nil_r. auto.
  - apply Forall_cons_iff in HP, HT. destruct HP as [HP1 HP2], HT as [HT1 HT2]. cbn [snd] in HT1.
    cbn [map fst] in HR.
    assert (Rab : 1 <= a <= n /\ 1 <= b <= n).
    { unfold in_range in HR. rewrite Forall_forall in HR. apply (HR (a, b)). rewrite in_app_iff. right. left. reflexivity. }
    destruct Rab as [Ra Rb].
    assert (RE : in_range E) by (unfold in_range in *; apply Forall_app in HR; tauto).
    rewrite <- app_assoc, get_plain by exact HP1. cbn [line_text bind].
    rewrite scan_edge_line by (auto; lia). rewrite bind_ret. cbv beta iota. cbn [use bind].
    assert (HR' : in_range ((E ++ [(a, b)]) ++ map fst es)) by (rewrite <- app_assoc; exact HR).
    cbn [fst]. replace (E ++ (a, b) :: map fst es) with ((E ++ [(a, b)]) ++ map fst es) by (rewrite <- app_assoc; reflexivity).
    destruct (Z.eqb_spec a b) as [->|Nab].
    + rewrite bind_ret. cbn [negb andb]. apply (IH HP2 HT2 _ g adj); auto. apply leda_skip; auto.
    + pose proof (mid_rep _ _ _ _ _ (lv_mid _ _ _ I) Hn) as R. pose proof (md_N _ _ _ _ _ _ (lv_mid _ _ _ I)) as EN.
      rewrite (nbr_test g adj a b R) by (try (unfold is_vertex; lia); intros e He; apply (md_flags _ _ _ _ _ _ (lv_mid _ _ _ I)); unfold gp_EdgeIndexBound in He; lia).
      rewrite bind_ret. cbn [negb andb].
      assert (Q : adjb g adj a b = true <-> linked_by E a b).
      { rewrite <- (lv_adj _ _ _ I). unfold adjb. rewrite existsb_exists, in_map_iff. split; intros (e & H1 & H2); exists e; [split; [lia|exact H1]|split; [exact H2|lia]]. }
      destruct (adjb g adj a b) eqn:EQ; cbn [C_TRUE C_FALSE Z.eqb Pos.eqb].
      * apply (IH HP2 HT2 _ g adj); auto. apply leda_skip; auto. right. tauto.
      * destruct (leda_edge E g adj a b RE Ra Rb Nab I ltac:(rewrite <- Q; discriminate)) as (g1 & adj1 & E1 & I1 & F1).
        rewrite E1, bind_ret. cbv beta iota. cbn [C_OK Z.eqb Pos.eqb negb].
        destruct (IH HP2 HT2 _ g1 adj1 (Some a) (Some b) (Some (ended (edge_line (a, b, t)))) more HR' Hi I1) as (g2 & adj2 & E2 & I2 & F2).
        exists g2, adj2. split; [exact E2|]. split; [exact I2|congruence].
Qed.
End Leda.

Lemma linv_init n C : 1 <= n -> 6 * n <= C -> exists g, gp_InitGraph gp_New n = (g, C_OK) /\ gN g = n /\ giflags g = 0 /\ linv n C g no_adj [].
Proof.
  intros Hn HC.
  destruct (wp_inv _ _ (fresh_ok 0 n Hn)) as (g & E & R & EN & Cl & Es & Ec).
  assert (Eg : gp_InitGraph gp_New n = (g, C_OK)).
  { unfold fresh_graph in E. cbn in E. unfold gp_InitGraph in *. replace (n <=? 0) with false in * by lia. cbn [gN gp_New Z.eqb negb] in *.
    unfold _InitGraph in *. cbv zeta in *. cbn [fst] in E. injection E as <-. reflexivity. }
  assert (Fs : gM g = 0 /\ gholes g = [] /\ giflags g = 0 /\ eflags g = zfun /\ 0 <= gstackCap g).
  { unfold gp_InitGraph in Eg. replace (n <=? 0) with false in Eg by lia. cbn [gN gp_New Z.eqb negb] in Eg. unfold _InitGraph in Eg.
    cbv zeta in Eg. injection Eg as <-. repeat split. cbn. destruct (_ <? _) eqn:Q; lia. }
  destruct Fs as (F1 & F2 & F3 & F4 & F5).
  exists g. split; [exact Eg|]. split; [exact EN|]. split; [exact F3|].
  cbn [andb Z.ltb Z.compare] in Ec. pose proof (rep_storage _ _ R) as St.
  constructor.
  - constructor; rewrite ?F1, ?F2, ?F4; auto; try lia; try apply R.
    + exact Logic.I.
    + constructor.
    + intros w e [[]|[_ []]].
  - intros x. constructor.
  - intros x y. unfold linked_by. cbn. tauto.
  - exists []. split; [constructor|]. split; [rewrite F1; reflexivity|]. intros x y. cbn. tauto.
Qed.

Lemma linv_graph n C g adj E : 1 <= n -> in_range n E -> linv n C g adj E ->
  simple_graph g adj /\ gN g = n /\ forall x y, adjacent g adj x y <-> x <> y /\ (In (x, y) E \/ In (y, x) E).
Proof.
  intros Hn RE I. pose proof (mid_rep _ _ _ _ _ (lv_mid _ _ _ _ _ I) Hn) as R. pose proof (md_N _ _ _ _ _ _ (lv_mid _ _ _ _ _ I)) as EN.
  assert (AD : forall x y, adjacent g adj x y <-> linked_by E x y).
  { intros x y. rewrite <- (lv_adj _ _ _ _ _ I), in_map_iff. split; intros (e & H1 & H2); exists e; auto. }
  split; [|split; [exact EN|exact AD]]. split; [exact R|]. split; [split|].
  - intros v e He Hv. assert (H : adjacent g adj v v) by (exists e; auto). apply AD in H. destruct H. lia.
  - intros v e f He Hf H. pose proof (lv_nodup _ _ _ _ _ I v) as ND.
    exact (NoDup_map_inj _ _ _ _ ND He Hf H).
  - intros v e He. assert (H : adjacent g adj v (enbr g e)) by (exists e; auto). apply AD in H.
    unfold primary. destruct H as (_ & [H|H]); apply (proj1 (Forall_forall _ _) RE) in H; cbn [fst snd] in H; lia.
Qed.

Lemma leda_ok n pairs text fuel : 1 <= n <= 32768 -> Z.of_nat (length pairs) <= INT_MAX -> in_range n pairs -> leda_file n pairs text ->
  exists h adj, gp_Read fuel gp_New text = Ret (h, C_OK) /\ simple_graph h adj /\ gN h = n /\
    (forall x y, adjacent h adj x y <-> x <> y /\ (In (x, y) pairs \/ In (y, x) pairs)) /\ zero_based h = false.
Proof.
  intros Hn Hm HR (h1 & h2 & h3 & tn & vs & tm & es & more & -> & Ev & Ep & HP & T1 & T2 & T3).
  set (C := Z.max (6 * n) (n * (n - 1))).
  assert (HC : n * (n - 1) <= C /\ 6 * n <= C /\ 2 * C <= INT_MAX) by (unfold C, INT_MAX; nia).
  assert (Hi : n <= INT_MAX) by (unfold INT_MAX; lia).
  destruct HC as (HC1 & HC2 & HC3).
  apply Forall_app in HP. destruct HP as [HP1 HP]. apply Forall_app in HP. destruct HP as [HP2 HP]. apply Forall_app in HP. destruct HP as [HP3 HP4].
  assert (L1 := Forall_inv HP1). assert (L3 := Forall_inv HP3).
  unfold gp_Read. set (text := concat _ ++ more).
  assert (Ef : fst (get_line None text) = Some (ended (leda_mark ++ h1))).
  { unfold text. rewrite map_app. cbn [map app concat]. rewrite <- !app_assoc. rewrite get_plain by exact L1. reflexivity. }
  rewrite Ef. cbn [line_text bind].
  replace (starts_with leda_tag (ended (leda_mark ++ h1))) with true by reflexivity.
  unfold _ReadLEDAGraph.
  assert (Et : text = concat (map ended [leda_mark ++ h1; h2; h3; dec n ++ tn]) ++ concat (map ended vs) ++ ended (dec (Z.of_nat (length pairs)) ++ tm) ++ concat (map ended (map edge_line es)) ++ more).
  { unfold text. rewrite !map_app, !concat_app. rewrite <- !app_assoc. cbn [map concat]. rewrite app_nil_r, <- !app_assoc. reflexivity. }
  rewrite Et.
  rewrite (skip_plain [leda_mark ++ h1; h2; h3; dec n ++ tn] HP1 None) by discriminate. cbn [last line_text bind].
  destruct (scan_line n tn ltac:(lia) T1) as (r1 & Er1). rewrite Er1, bind_ret. cbv beta iota.
  destruct (linv_init n C ltac:(lia) HC2) as (g & Eg & EN & EF & I). rewrite Eg. cbn [C_OK Z.eqb Pos.eqb negb]. rewrite EN.
  replace (Z.to_nat n) with (length vs) by lia.
  destruct (skip_plain_any vs HP2 (Some (ended (dec n ++ tn))) (ended (dec (Z.of_nat (length pairs)) ++ tm) ++ concat (map ended (map edge_line es)) ++ more)) as (l1 & El).
  rewrite El. rewrite get_plain by exact L3. cbn [line_text bind].
  destruct (scan_line (Z.of_nat (length pairs)) tm ltac:(lia) T2) as (r2 & Er2). rewrite Er2, bind_ret. cbv beta iota. cbn [use bind].
  rewrite Nat2Z.id. subst pairs. rewrite map_length.
  destruct (leda_edges_ok n C HC1 HC3 ltac:(lia) es HP4 T3 [] g no_adj None None (Some (ended (dec (Z.of_nat (length (map fst es))) ++ tm))) more HR Hi I) as (h & adj & Eh & Ih & Fh).
  rewrite map_length in Eh.
  exists h, adj. split; [exact Eh|]. cbn [app] in Ih. destruct (linv_graph n C h adj _ ltac:(lia) HR Ih) as (G1 & G2 & G3).
  split; [exact G1|]. split; [exact G2|]. split; [exact G3|]. unfold zero_based. rewrite Fh, EF. reflexivity.
Qed.
