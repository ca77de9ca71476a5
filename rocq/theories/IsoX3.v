(** * IsoX3: the X-Y path of an outerplanar component is one chord. *)
From Coq Require Import ZifyBool Permutation.
From Verif Require Import Base BaseP GraphRec GraphM GraphSpec GSimp LinkP GraphP GraphP2 GraphP3 GraphP6 GraphP7 ListM ListSpec DFSM DFSSpec DFSP TestM TestP EmbM EmbSpec EmbP EmbP2 FaceP GeoP EmbInv EmbStep EmbTree EmbWalk EmbOrient FanP IsoM IsoP1 IsoO2 IsoX IsoX2.

Lemma sub_app_inv k l1 : forall l2, sub k (l1 ++ l2) -> exists k1 k2, k = k1 ++ k2 /\ sub k1 l1 /\ sub k2 l2.
Proof.
  revert k. induction l1 as [|x l1 IH]; intros k l2 H.
  - exists [], k. split; [reflexivity|]. split; [constructor|exact H].
  - cbn [app] in H. inversion H as [l Q1 Q2|y k' l H' Q1 Q2|y k' l H' Q1 Q2]; subst.
    + exists [], []. split; [reflexivity|]. split; constructor.
    + destruct (IH _ _ H') as (k1 & k2 & -> & S1 & S2). exists (x :: k1), k2. split; [reflexivity|]. split; [now constructor|auto].
    + destruct (IH _ _ H') as (k1 & k2 & -> & S1 & S2). exists k1, k2. split; [reflexivity|]. split; [now constructor|auto].
Qed.
Lemma map_split (f : Z -> Z) l : forall k1 k2, map f l = k1 ++ k2 -> exists l1 l2, l = l1 ++ l2 /\ map f l1 = k1 /\ map f l2 = k2.
Proof.
  induction l as [|x l IH]; intros k1 k2 E.
  - destruct k1; [|discriminate]. exists [], []. auto.
  - destruct k1 as [|y k1].
    + exists [], (x :: l). auto.
    + cbn [map app] in E. injection E as <- E. destruct (IH _ _ E) as (l1 & l2 & -> & <- & <-). exists (x :: l1), l2. auto.
Qed.
Lemma filter_all (q : Z -> bool) l : (forall x, In x l -> q x = true) -> filter q l = l.
Proof. induction l as [|x l IH]; intros H; [reflexivity|]. cbn [filter]. rewrite H by (now left). f_equal. apply IH. intros; apply H; now right. Qed.
Lemma filter_none (q : Z -> bool) l : (forall x, In x l -> q x = false) -> filter q l = [].
Proof. induction l as [|x l IH]; intros H; [reflexivity|]. cbn [filter]. rewrite H by (now left). apply IH. intros; apply H; now right. Qed.

Lemma marked_ext g0 F0 F F' ME : marked g0 F0 F ME -> (forall x, F' x = F x) -> marked g0 F0 F' ME.
Proof. intros [A1 A2] E. constructor; intros e; rewrite E; auto. Qed.

Section XY.
Variable g0 : graph.
Local Notation N := (gN g0).
Local Notation rpv := (rpv g0).
Local Notation marked := (marked g0).
Variables (b : est) (R X W : Z) (M1 M2 : list Z).
Local Notation L := (X :: M1 ++ W :: M2).
Local Notation s := (eV b).
Local Notation n := (fun x => map (nb (eV b)) (adj (eV b) x)).
Hypothesis Tw : forall x e, In e (adj s x) -> nb s (twin e) = x /\ In (twin e) (adj s (nb s e)).
Hypothesis Lf : forall x e, In e (adj s x) -> nb s e <> x.
Hypothesis Nd : NoDup (R :: L).
Hypothesis Rng : forall x, In x (R :: L) -> 1 <= x <= 2 * N.
Hypothesis FN : cfan n R L.
Hypothesis N2 : M2 <> [].
Hypothesis Cv : cover n L W.

Local Lemma NL : L <> [].
Proof. discriminate. Qed.
Local Lemma RL : ~ In R L.
Proof. pose proof Nd as Q. apply NoDup_cons_iff in Q. apply Q. Qed.
Local Lemma NdL : NoDup L.
Proof. pose proof Nd as Q. apply NoDup_cons_iff in Q. apply Q. Qed.
Local Lemma last_L : last L NIL = last M2 NIL /\ In (last M2 NIL) M2.
Proof.
  destruct (list_snoc M2) as [->|(k & y & E)]; [congruence|]. rewrite E. replace (X :: M1 ++ W :: k ++ [y]) with ((X :: M1 ++ W :: k) ++ [y]) by (cbn [app]; now rewrite <- app_assoc). rewrite !last_snoc. split; [auto|]. apply in_app_iff. right. now left.
Qed.
Lemma R_list : exists ea mid eb, adj s R = ea :: mid ++ [eb] /\ nb s ea = X /\ nb s eb = last L NIL /\ twin ea = last (adj s X) NIL.
Proof.
  destruct (f_R b R L FN) as [E1 E2]. cbv beta in E1, E2. pose proof (adj_ne g0 b R L Rng FN NL R (or_introl eq_refl)) as NA.
  destruct (adj s R) as [|ea r] eqn:EA; [congruence|]. cbn [map hd] in E1. destruct (list_snoc r) as [->|(mid & eb & ->)].
  - exfalso. change (last (map (nb s) [ea]) NIL) with (nb s ea) in E2. rewrite (proj1 last_L) in E2. pose proof NdL as Q. apply NoDup_cons_iff in Q. apply (proj1 Q). rewrite <- E1, E2. apply in_app_iff. right. right. apply last_L.
  - exists ea, mid, eb. split; [reflexivity|]. split; [exact E1|]. change (ea :: mid ++ [eb]) with ((ea :: mid) ++ [eb]) in E2. rewrite map_app in E2. cbn [map] in E2. change (nb s ea :: map (nb s) mid) with (map (nb s) (ea :: mid)) in E2. split.
    + rewrite <- E2. now rewrite last_snoc.
    + pose proof (rim_eq g0 b R L Tw Nd Rng FN R X) as Q. cbv beta in Q. rewrite EA in Q. cbn [map hd] in Q. apply Q; [now left|right; now left|exact E1|]. apply (f_mid b R L FN [] X (M1 ++ W :: M2) eq_refl).
Qed.

Section Hid.
Variables (ea eb : Z) (mid : list Z).
Hypothesis EA : adj s R = ea :: mid ++ [eb].
Hypothesis Ea : nb s ea = X.
Hypothesis Eb : nb s eb = last L NIL.
Hypothesis Et : twin ea = last (adj s X) NIL.
Hypothesis NdR : NoDup (adj s R).
Local Notation A := (adj_without (adj s) mid).
Local Notation keep := (fun x => negb (existsb (fun e => (x =? e) || (x =? twin e)) mid)).
Lemma keep_iff x : keep x = true <-> ~ In x mid /\ ~ In (twin x) mid.
Proof.
  rewrite negb_true_iff. split.
  - intros H. split; intros Q; apply not_true_iff_false in H; apply H, existsb_exists; [exists x|exists (twin x)]; (split; [auto|]); rewrite ?twin_invol, Z.eqb_refl; auto. now rewrite orb_true_r.
  - intros [H1 H2]. apply not_true_iff_false. rewrite existsb_exists. intros (e & He & Q). apply orb_true_iff in Q. rewrite !Z.eqb_eq in Q. destruct Q as [->| ->]; [auto|]. rewrite twin_invol in H2. auto.
Qed.
Lemma mid_R e : In e mid -> In e (adj s R).
Proof. intros H. rewrite EA. right. apply in_app_iff. now left. Qed.
Lemma keep_L z e : In z L -> In e (adj s z) -> nb s e <> R -> keep e = true.
Proof.
  intros Hz He Hn. apply keep_iff. split; intros Q; apply mid_R in Q.
  - destruct (Tw _ _ He) as [T1 _], (Tw _ _ Q) as [T2 _]. apply RL. now rewrite <- T2, T1.
  - destruct (Tw _ _ Q) as [T2 _]. rewrite twin_invol in T2. auto.
Qed.
Lemma z_split L1 z L2 : L = L1 ++ z :: L2 -> exists B2 B0 B1, adj s z = B2 ++ B0 ++ B1 /\ sub (map (nb s) B2) L2 /\ sub (map (nb s) B0) [R] /\ sub (map (nb s) B1) L1 /\ (L2 <> [] -> B2 <> []) /\
  filter keep B2 = B2 /\ filter keep B1 = B1.
Proof.
  intros E. destruct (of_at _ _ _ (cf_open _ _ _ FN) L1 z L2 E) as (S0 & Hh & _). cbv beta in S0, Hh. change (L2 ++ R :: L1) with (L2 ++ [R] ++ L1) in S0.
  destruct (sub_app_inv _ _ _ S0) as (k2 & k & E1 & S2 & S1). destruct (sub_app_inv _ _ _ S1) as (k0 & k1 & E2 & S3 & S4). subst k. destruct (map_split _ _ _ _ E1) as (B2 & B & EB & Q2 & Q). destruct (map_split _ _ _ _ Q) as (B0 & B1 & EB' & Q0 & Q1). subst B k2 k0 k1.
  exists B2, B0, B1. split; [exact EB|]. split; [auto|]. split; [auto|]. split; [auto|].
  assert (Hz : In z L) by (rewrite E; apply in_app_iff; right; now left).
  assert (I1 : forall y, In y L1 -> In y L) by (intros y Hy; rewrite E; apply in_app_iff; now left). assert (I2 : forall y, In y L2 -> In y L) by (intros y Hy; rewrite E; apply in_app_iff; right; now right).
  split; [|split].
  - intros NE ->. cbn [app] in EB. destruct L2 as [|y L2]; [congruence|]. cbn [hd] in Hh. rewrite EB in Hh. assert (Hy : In y ([R] ++ L1)).
    { apply (sub_in (map (nb s) (B0 ++ B1))); [rewrite map_app; now apply sub_app|]. rewrite <- Hh. apply hd_in. intros Q'. rewrite Q' in Hh. cbn in Hh. subst y. apply (NILc g0 R L Rng). right. apply I2. now left. }
    destruct Hy as [Hy|Hy]; [apply RL; rewrite Hy; apply I2; now left|]. pose proof NdL as ND. rewrite E in ND. apply (NoDup_app_disj _ _ y ND Hy). right. now left.
  - apply filter_all. intros e He. apply (keep_L z); auto; [rewrite EB; apply in_app_iff; now left|]. intros Q'. apply RL. rewrite <- Q'. apply I2, (sub_in _ _ _ S2). now apply in_map.
  - apply filter_all. intros e He. apply (keep_L z); auto; [rewrite EB, !in_app_iff; auto|]. intros Q'. apply RL. rewrite <- Q'. apply I1, (sub_in _ _ _ S4). now apply in_map.
Qed.
Lemma A_R : A R = [ea; eb].
Proof.
  pose proof NdR as Q. rewrite EA in Q. pose proof Q as Q'. apply NoDup_cons_iff in Q. destruct Q as [Q1 Q2]. rewrite in_app_iff in Q1.
  assert (T0 : forall e, In e (adj s R) -> ~ In (twin e) mid). { intros e He Ht. apply mid_R in Ht. destruct (Tw _ _ Ht) as [T1 _]. rewrite twin_invol in T1. now apply (Lf _ _ He). }
  unfold adj_without. rewrite EA. cbn [filter]. replace (keep ea) with true by (symmetry; apply keep_iff; split; [tauto|apply T0; rewrite EA; now left]). f_equal. rewrite filter_app. rewrite filter_none.
  - cbn [app filter]. replace (keep eb) with true; [reflexivity|]. symmetry. apply keep_iff. split; [|apply T0; rewrite EA; right; apply in_app_iff; right; now left]. intros H. apply (NoDup_app_disj _ _ eb Q2 H). now left.
  - intros e He. apply not_true_iff_false. rewrite keep_iff. tauto.
Qed.
Lemma A_X : exists A2, A X = A2 ++ [twin ea] /\ A2 <> [] /\ sub (map (nb s) A2) (M1 ++ W :: M2).
Proof.
  destruct (z_split [] X (M1 ++ W :: M2) eq_refl) as (B2 & B0 & B1 & E & S2 & S0 & S1 & N0 & F2 & F1). apply sub_nil_inv in S1. destruct B1; [|discriminate]. rewrite app_nil_r in E.
  exists B2. split; [|split; [apply N0; destruct M1; discriminate|exact S2]]. destruct (Tw R ea) as [T1 _]; [rewrite EA; now left|].
  assert (B0 = [twin ea]).
  { destruct B0 as [|e0 [|e1 B0]].
    - exfalso. rewrite app_nil_r in E. apply RL. right. apply (sub_in _ _ _ S2). rewrite <- T1, Et, E. apply in_map. apply last_In. apply N0. destruct M1; discriminate.
    - rewrite Et, E, last_snoc. reflexivity.
    - exfalso. cbn [map] in S0. inversion S0 as [|y k l H Q1 Q2|y k l H Q1 Q2]; subst; apply sub_nil_inv in H; discriminate. }
  subst B0. unfold adj_without. rewrite E, filter_app, F2. f_equal. cbn [filter]. replace (keep (twin ea)) with true; [reflexivity|]. symmetry. apply keep_iff. rewrite twin_invol. split.
  - intros Q. apply mid_R in Q. destruct (Tw _ _ Q) as [T2 _]. rewrite twin_invol, Ea in T2. apply RL. rewrite <- T2. now left.
  - intros Q. pose proof NdR as Q'. rewrite EA in Q'. apply NoDup_cons_iff in Q'. apply (proj1 Q'), in_app_iff. now left.
Qed.
Lemma A_Z L1 z L2 : L = L1 ++ z :: L2 -> L1 <> [] -> L2 <> [] -> exists A2 A1, A z = A2 ++ A1 /\ A2 <> [] /\ sub (map (nb s) A2) L2 /\ sub (map (nb s) A1) L1.
Proof.
  intros E N1 NL2. destruct (z_split L1 z L2 E) as (B2 & B0 & B1 & E' & S2 & S0 & S1 & N0 & F2 & F1). exists B2, B1. split; [|auto].
  unfold adj_without. rewrite E', !filter_app, F2, F1. f_equal. rewrite filter_none; [reflexivity|]. intros e He. apply not_true_iff_false. rewrite keep_iff. intros [_ Q]. apply Q.
  assert (Ez : In e (adj s z)) by (rewrite E', !in_app_iff; auto). assert (En : nb s e = R). { apply (in_map (nb s)) in He. apply (sub_in _ _ _ S0) in He. destruct He as [He|[]]. auto. }
  destruct (Tw _ _ Ez) as [T1 T2]. rewrite En, EA in T2. cbn [In] in T2. rewrite in_app_iff in T2. cbn [In] in T2. pose proof NdL as ND. destruct T2 as [T2|[T2|[T2|[]]]]; [exfalso|auto|exfalso].
  - rewrite <- T2 in T1. rewrite Ea in T1. destruct L1 as [|y L1]; [congruence|]. injection E as <- E. subst z. apply NoDup_cons_iff in ND. apply (proj1 ND). rewrite E. apply in_app_iff. right. now left.
  - rewrite <- T2, Eb in T1. destruct (list_snoc L2) as [->|(l & y & ->)]; [congruence|]. rewrite E in T1, ND. replace (L1 ++ z :: l ++ [y]) with ((L1 ++ z :: l) ++ [y]) in T1 by (now rewrite <- app_assoc). rewrite last_snoc in T1. subst y.
    apply NoDup_remove in ND. apply (proj2 ND). rewrite !in_app_iff. right. right. now left.
Qed.
Lemma A_in z e : In z L -> In e (adj s z) -> nb s e <> R -> In e (A z).
Proof. intros Hz He Hn. unfold adj_without. apply filter_In. split; [auto|]. now apply (keep_L z). Qed.
End Hid.

Lemma xy_path_ok g F F0 stk : rpv g (setfl b F) stk -> marked F0 F [] -> vis0 g0 g -> vtype g R = 0 ->
  (forall x, In x (X :: M1) -> vtype g x = OBS_LOW_RXW) -> (forall x, In x M2 -> vtype g x = OBS_LOW_RYW) ->
  Z.of_nat (length stk) + Z.of_nat (length (adj s R)) + 4 <= gstackCap g0 -> gp_EdgeInUseIndexBound g0 <= gp_EdgeIndexBound g0 ->
  exists g' F' px py e, _MarkHighestXYPath g R W = Ret (g', C_OK, px, py) /\ rpv g' (setfl b F') stk /\ marked F0 F' [e] /\ In px (X :: M1) /\ In py M2 /\ In e (adj s px) /\ nb s e = py.
Proof.
  intros H M V0 TR TX TY Cap Bd. destruct R_list as (ea & mid & eb & EA & Ea & Eb & Et). pose proof (r_chains _ _ _ _ H) as C. cbn [setfl set_V v_fl eV adj] in C.
  assert (NdR : NoDup (adj s R)) by apply (ch_nodup _ _ C).
  assert (Enb : forall x, enbr g x = nb s x) by apply (r_nb _ _ _ _ H).
  assert (TW : twins_ok g (adj s)). { intros x e He. rewrite !Enb. now apply Tw. }
  assert (NLp : no_loops g (adj s)). { intros x e He. rewrite Enb. now apply Lf. }
  assert (Stk : gstack g = stk) by apply (r_stack _ _ _ _ H).
  pose proof (rpv_stackcap g0 _ _ _ H) as SC. assert (LR : length (adj s R) = (2 + length mid)%nat) by (rewrite EA; cbn [length]; rewrite app_length; cbn [length]; lia).
  destruct (hide_internal_ok2 g (adj s) R ea mid eb C TW NLp EA) as (k & E1 & Ck & Tk & Fk & U); [rewrite Stk; lia|].
  unfold _MarkHighestXYPath. rewrite E1. cbn [bind C_OK Z.eqb Pos.eqb negb]. rewrite Stk in *.
  assert (VR : 1 <= R <= 2 * N) by (apply Rng; now left). pose proof (rpv_N g0 _ _ _ H) as KN.
  assert (Isv : is_vertex k R) by (unfold is_vertex; rewrite (fl_N _ _ Fk), KN; lia).
  set (A := adj_without (adj s) mid) in *. pose proof (A_R ea eb mid EA NdR) as AR. fold A in AR.
  rewrite get_last by (apply inV_true; unfold is_vertex, gp_VertexIndexBound in *; gsimp; lia). cbn [bind]. gsimp. rewrite (ch_last _ _ Ck R Isv), AR. cbn [last].
  set (S0 := rev mid ++ stk). assert (Ek : forall x, enbr k x = nb s x) by (intros x; rewrite (fl_enbr _ _ Fk); apply Enb).
  assert (Em : forall l, map (enbr k) l = map (nb s) l) by (intros l; apply map_ext; auto).
  assert (Ei : forall e, In e mid -> In e (adj s R)) by (apply (mid_R ea eb mid EA)).
  destruct (xy_start k A R X W M1 M2 Ck Tk Nd) with (ea := ea) (eb := eb) (T0 := vtype g) (S0 := S0) (g0 := g0) (F0 := F0) (Fv := vflags k) (Fe := eflags k) as (Fv' & Fe' & S' & px & py & e' & E2 & P1 & P2 & P3 & P4 & P5).
  - apply (nocross_incl n); [|apply FN]. intros x y Hx Hy. rewrite Em in Hy. apply in_map_iff in Hy. destruct Hy as (e & <- & He). apply in_map. unfold A, adj_without in He. apply filter_In in He. apply He.
  - destruct Cv as (x & y & X1 & X2 & X3 & X4 & X5). exists x, y. split; [auto|]. split; [auto|]. split; [auto|]. split; [auto|]. rewrite Em. apply in_map_iff in X5. destruct X5 as (e & <- & He). apply in_map. apply (A_in ea eb mid EA); auto. intros Q. apply RL. now rewrite <- Q.
  - exact AR.
  - rewrite Ek. exact Ea.
  - rewrite Ek. split; [exact Eb|exact N2].
  - destruct (A_X ea eb mid EA Ea Eb Et NdR) as (A2 & Q1 & Q2 & Q3). exists A2. rewrite Em. auto.
  - intros L1 z L2 E N1 NL2. destruct (A_Z ea eb mid EA Ea Eb L1 z L2 E N1 NL2) as (A2 & A1 & Q1 & Q2 & Q3 & Q4). exists A2, A1. rewrite !Em. auto.
  - exact TR.
  - intros z Hz. left. now apply TX.
  - intros z Hz. left. now apply TY.
  - unfold S0. rewrite app_length, rev_length, (fl_stackCap _ _ Fk), SC. lia.
  - intros x Hx. rewrite (fl_vflags _ _ Fk). apply V0. now apply Rng.
  - intros x Hx. rewrite (fl_vflags _ _ Fk). reflexivity.
  - rewrite (fl_eflags _ _ Fk). eapply marked_ext; [exact M|]. intros x. rewrite (r_fl _ _ _ _ H). reflexivity.
  - assert (Emk : mk k (vflags k) (eflags k) S0 = set_gstack k S0) by (destruct k; reflexivity). rewrite Emk in E2.
    change (efuel (set_gstack k S0)) with (efuel k). change (stk_size (set_gstack k S0)) with (Z.of_nat (length S0)). rewrite E2. cbn [bind].
    change (stk_size g) with (Z.of_nat (length (gstack g))). rewrite Stk.
    assert (Esh : stk_shrink (mk k Fv' Fe' (S' ++ S0)) (Z.of_nat (length S0)) = set_gstack (mk k Fv' Fe' []) S0).
    { unfold stk_shrink. change (gstack (mk k Fv' Fe' (S' ++ S0))) with (S' ++ S0). rewrite app_length, Nat2Z.id. replace (length S' + length S0 - length S0)%nat with (length S') by lia. rewrite skipn_app, skipn_all, Nat.sub_diag. reflexivity. }
    rewrite Esh. destruct (U (mk k Fv' Fe' [])) as (h' & E3 & EL & F').
    + constructor; reflexivity.
    + exact (fl_N _ _ Fk).
    + exact (fl_cap _ _ Fk).
    + intros x. change (enbr (mk k Fv' Fe' []) x) with (enbr k x). now rewrite (fl_enbr _ _ Fk).
    + unfold S0. rewrite E3. cbn [bind C_OK Z.eqb Pos.eqb negb].
      assert (Npy : py <> NIL). { intros ->. apply (NILc g0 R L Rng). right. right. apply in_app_iff. right. now right. }
      rewrite eqb_false_neq by auto. exists (set_gstack h' stk), Fe', px, py, e'. split; [reflexivity|]. split; [|split; [exact P5|split; [auto|split; [auto|split]]]].
      * assert (B1 : gN h' = gN g) by (rewrite (fl_N _ _ F'); exact (fl_N _ _ Fk)).
        assert (B2 : gM h' = gM g) by (rewrite (fl_M _ _ F'); exact (fl_M _ _ Fk)).
        assert (B3 : gCap h' = gCap g) by (rewrite (fl_cap _ _ F'); exact (fl_cap _ _ Fk)).
        assert (B4 : enbr h' = enbr g) by (rewrite (fl_enbr _ _ F'); exact (fl_enbr _ _ Fk)).
        assert (B7 : vindex h' = vindex g) by (rewrite (fl_vindex _ _ F'); exact (fl_vindex _ _ Fk)).
        assert (B8 : gholes h' = gholes g) by (rewrite (fl_holes _ _ F'); exact (fl_holes _ _ Fk)).
        assert (B9 : gholesCap h' = gholesCap g) by (rewrite (fl_holesCap _ _ F'); exact (fl_holesCap _ _ Fk)).
        assert (B10 : gstackCap h' = gstackCap g) by (rewrite (fl_stackCap _ _ F'); exact (fl_stackCap _ _ Fk)).
        assert (B11 : giflags h' = giflags g) by (rewrite (fl_iflags _ _ F'); exact (fl_iflags _ _ Fk)).
        assert (B12 : gembed h' = gembed g) by (rewrite (fl_embed _ _ F'); exact (fl_embed _ _ Fk)).
        assert (B13 : gVI h' = gVI g) by (rewrite (fl_VI _ _ F'); exact (fl_VI _ _ Fk)).
        assert (B14 : gX h' = gX g) by (rewrite (fl_X _ _ F'); exact (fl_X _ _ Fk)).
        assert (B5 : eflags h' = Fe') by exact (fl_eflags _ _ F').
        assert (B6 : vflags h' = Fv') by exact (fl_vflags _ _ F').
        unfold IsoP1.rpv in *. pose proof (r_keeps _ _ _ _ H) as KP. destruct H. destruct KP. constructor; gsimp; cbn [setfl set_V v_fl eV nb fl e0 e1 adj fw prl pe fpc vis] in *; rewrite ?B1, ?B2, ?B3, ?B4, ?B5, ?B8, ?B9, ?B10, ?B11, ?B12, ?B13, ?B14; auto.
        -- constructor; gsimp; rewrite ?B1, ?B2, ?B3, ?B4, ?B5, ?B8, ?B9, ?B10, ?B11, ?B12, ?B13, ?B14; auto. intros x Hx. rewrite B7, B6. split; [now apply k_index|reflexivity].
        -- apply (chains_agree g); auto; gsimp; [unfold gp_EdgeIndexBound; gsimp; rewrite B3; lia|..]; intros; split; apply EL.
        -- intros u. eapply ring_ext; [|apply r_ring]. intros; split; apply EL.
        -- intros u f Hf. specialize (r_fwrange u f Hf). unfold gp_EdgeIndexBound in *. gsimp. now rewrite B3.
        -- unfold prlheads, brl, gp_PrimaryVertexIndexBound in *. gsimp. rewrite B1, B13, B14. exact r_prl.
      * unfold A, adj_without in P3. apply filter_In in P3. apply P3.
      * now rewrite <- Ek.
Qed.
End XY.
