(** * ObsP4: the tests for subdivisions of complete graphs and of K3,3. *)
From Coq Require Import ZifyBool Permutation.
From Verif Require Import Base BaseP GraphRec GraphM GraphSpec GSimp LinkP GraphP GraphP2 GraphP3 GraphP5
  DFSM DFSSpec DFSP DFSP2 RandP2 TestM TestSpec OrbitP TestP TestP2 TestP3 TestP4 ObsSpec ObsP ObsP2 ObsP3.

Lemma all_pairs_split l u v : In (u, v) (all_pairs l) <-> exists l1 l2, l = l1 ++ u :: l2 /\ In v l2.
Proof.
  induction l as [|a l IH]; cbn [all_pairs].
  - split; [intros []|]. intros ([|? ?] & l2 & E & _); discriminate.
  - rewrite in_app_iff, in_map_iff, IH. split.
    + intros [(x & E & H)|(l1 & l2 & -> & H)]; [injection E as <- <-; exists [], l; auto|exists (a :: l1), l2; auto].
    + intros ([|b l1] & l2 & E & H); injection E as -> ->; [left; eauto|right; eauto].
Qed.
Lemma all_pairs_ok l u v : NoDup l -> In (u, v) (all_pairs l) -> In u l /\ In v l /\ u <> v /\ ~ In (v, u) (all_pairs l).
Proof.
  intros ND H. apply all_pairs_split in H as (l1 & l2 & -> & H).
  pose proof ND as N2. apply NoDup_app_inv in N2 as (_ & N2 & D). inversion N2 as [|? ? N3 N4]; subst.
  assert (u <> v) by (intros ->; tauto).
  split; [apply in_or_app; right; now left|]. split; [apply in_or_app; right; now right|]. split; auto.
  intros Q. apply all_pairs_split in Q as (m1 & m2 & E & I).
  (* v occurs in l2 only, u after it would occur twice *)
  assert (K : forall (a b c d : list Z), NoDup (a ++ u :: b) -> a ++ u :: b = c ++ v :: d -> In v b -> In u d -> False).
  { clear. induction a as [|x a IH]; intros b c d ND E Hv Hu; destruct c as [|y c]; cbn in *.
    - injection E as -> ->. inversion ND; tauto.
    - injection E as -> E. inversion ND as [|? ? N _]; subst. apply N. rewrite in_app_iff. right; now right.
    - injection E as -> E. inversion ND as [|? ? N _]; subst. apply N. rewrite in_app_iff. right; now right.
    - injection E as -> E. inversion ND; subst. eauto. }
  eapply K; eauto.
Qed.
Lemma all_pairs_total l u v : In u l -> In v l -> u <> v -> In (u, v) (all_pairs l) \/ In (v, u) (all_pairs l).
Proof.
  induction l as [|a l IH]; cbn [all_pairs In]; [tauto|]. rewrite !in_app_iff, !in_map_iff. intros [<-|Hu] [<-|Hv] N.
  - tauto.
  - left; left; eauto.
  - right; left; eauto.
  - destruct (IH Hu Hv N); auto.
Qed.
Lemma all_pairs_nodup l : NoDup l -> NoDup (all_pairs l).
Proof.
  induction 1 as [|a l N ND IH]; cbn [all_pairs]; [constructor|]. apply NoDup_app_intro; auto.
  - apply FinFun.Injective_map_NoDup; auto. intros x y E. congruence.
  - intros (x & y) H1 H2. apply in_map_iff in H1 as (z & E & _). injection E as <- <-.
    apply all_pairs_ok in H2; tauto.
Qed.
Lemma list_prod_nodup (a b : list Z) : NoDup a -> NoDup b -> NoDup (list_prod a b).
Proof.
  intros Na Nb. induction Na as [|x a N ND IH]; cbn [list_prod]; [constructor|]. apply NoDup_app_intro; auto.
  - apply FinFun.Injective_map_NoDup; auto. intros y z E. congruence.
  - intros (p & q) H1 H2. apply in_map_iff in H1 as (z & E & _). injection E as <- <-. apply in_prod_iff in H2. tauto.
Qed.

Lemma filter_all {A} (f : A -> bool) l : (forall x, In x l -> f x = true) -> filter f l = l.
Proof. induction l as [|a l IH]; intros H; cbn; auto. rewrite (H a) by (now left). f_equal. apply IH. intros; apply H; now right. Qed.
Definition others (cs : list Z) (c : Z) : list Z := filter (fun x => negb (x =? c)) cs.
Lemma others_in cs c x : In x (others cs c) <-> In x cs /\ x <> c.
Proof. unfold others. rewrite filter_In. rewrite negb_true_iff, Z.eqb_neq. tauto. Qed.
Lemma others_len cs c : NoDup cs -> In c cs -> S (length (others cs c)) = length cs.
Proof.
  induction 1 as [|a l N ND IH]; intros H; [destruct H|]. unfold others in *. cbn [filter]. destruct (Z.eqb_spec a c) as [->|Na]; cbn [negb length].
  - f_equal. rewrite (filter_ext_in _ (fun _ => true)); [clear; induction l; cbn; auto|].
    intros x Hx. apply negb_true_iff, Z.eqb_neq. intros ->; tauto.
  - f_equal. apply IH. destruct H; [congruence|auto].
Qed.

Section Tests.
Variables (g0 : graph) (adj : Z -> list Z).
Hypothesis R : rep g0 adj.
Hypothesis PE : primary_edges g0 adj.
Notation hv := (enbr g0).
Notation deg2 := (deg2 adj).
Notation proper := (proper g0 adj).
Notation internals := (internals g0).
Notation vm := (vertex_marks_only g0).
Notation deg := (deg adj).
Notation big := (big adj).
Notation cnt := (cnt g0).
Notation vs := (vs g0).

Lemma deg2_deg v : deg2 v <-> deg v = 2.
Proof. unfold ObsP.deg2, ObsP3.deg. lia. Qed.
Lemma deg_prim v : deg v <> 0 -> primary g0 v.
Proof.
  intros H. unfold ObsP3.deg in H. destruct (adj v) as [|a l] eqn:E; [cbn in H; lia|]. apply (src_prim g0 adj PE v a). rewrite E. now left.
Qed.

(** what the degree counts say when exactly the vertices of [cs] have degree k > 2 *)
Lemma corner_facts cs k : NoDup cs -> 2 < k -> (forall c, In c cs -> deg c = k) -> (forall v, ~ In v cs -> deg v = 0 \/ deg v = 2) ->
  Permutation (filter big vs) cs /\ cnt (fun v => deg v =? k) = Z.of_nat (length cs) /\
  (forall d, d <> 0 -> d <> 2 -> d <> k -> cnt (fun v => deg v =? d) = 0).
Proof.
  intros ND Hk Hc Ho.
  assert (K : forall v, big v = true <-> In v cs).
  { intros v. unfold ObsP3.big. split; intros H.
    - destruct (in_dec Z.eq_dec v cs); auto. destruct (Ho v); auto; lia.
    - rewrite (Hc v H). lia. }
  assert (P : Permutation (filter big vs) cs).
  { apply NoDup_Permutation; auto; [apply NoDup_filter, vs_nodup|]. intros x. rewrite filter_In, K, (in_vs g0 adj R). split; [tauto|].
    intros H; split; auto. apply deg_prim. rewrite (Hc x H). lia. }
  split; auto. split.
  - unfold ObsP3.cnt. f_equal. rewrite <- (Permutation_length P). f_equal. apply filter_ext. intros v. apply eq_true_iff_eq. rewrite K, Z.eqb_eq.
    split; intros H; auto. destruct (in_dec Z.eq_dec v cs); auto. destruct (Ho v); auto; lia.
  - intros d H1 H2 H3. unfold ObsP3.cnt. rewrite (filter_ext _ (fun _ => false)); [clear; now induction vs|].
    intros v. apply Z.eqb_neq. destruct (in_dec Z.eq_dec v cs) as [I|I]; [rewrite (Hc v I)|destruct (Ho v I)]; lia.
Qed.
Lemma cnt_or (f g : Z -> bool) l : (forall x, In x l -> f x = true -> g x = true -> False) ->
  length (filter (fun x => f x || g x) l) = (length (filter f l) + length (filter g l))%nat.
Proof.
  induction l as [|a l IH]; intros H; cbn [filter]; auto. specialize (IH (fun x Hx => H x (or_intror Hx))).
  destruct (f a) eqn:Ef, (g a) eqn:Eg; cbn [orb length]; try lia. exfalso. apply (H a); auto. now left.
Qed.
Lemma cnt3 k : k <> 0 -> k <> 2 ->
  (cnt (fun v => deg v =? 0) + cnt (fun v => deg v =? 2) + cnt (fun v => deg v =? k) = gN g0 <->
   forall v, primary g0 v -> deg v = 0 \/ deg v = 2 \/ deg v = k).
Proof.
  intros H0 H2. pose proof (st_N _ _ (rep_storage _ _ R)) as HN.
  set (f := fun v => ((deg v =? 0) || (deg v =? 2)) || (deg v =? k)).
  assert (E : cnt (fun v => deg v =? 0) + cnt (fun v => deg v =? 2) + cnt (fun v => deg v =? k) = Z.of_nat (length (filter f vs))).
  { unfold f, ObsP3.cnt. rewrite (cnt_or (fun v => (deg v =? 0) || (deg v =? 2))) by (intros; lia).
    rewrite cnt_or by (intros; lia). lia. }
  assert (T : length vs = Z.to_nat (gN g0)) by (unfold ObsP3.vs; apply zrange_length).
  rewrite E. split.
  - intros L v Hv. assert (K : f v = true).
    { apply (cnt_same f (fun _ => true) vs); auto; [|now apply (in_vs g0 adj R)].
      replace (filter (fun _ => true) vs) with vs by (clear; induction vs; cbn; congruence). lia. }
    unfold f in K. lia.
  - intros H. replace (filter f vs) with vs; [lia|]. symmetry. apply filter_all.
    intros v Hv. apply (in_vs g0 adj R) in Hv. specialize (H v Hv). unfold f. lia.
Qed.
(** ** Complete graphs *)
Definition image_facts (mD mN : Z) (ds imgs : list Z) : Prop :=
  (forall v, primary g0 v -> deg v <> 1 /\ deg v <= mD) /\ length ds = Z.to_nat (mD + 1) /\
  (forall d, 0 <= d <= mD -> nth (Z.to_nat d) ds 0 = cnt (fun v => deg v =? d)) /\
  exists pad, imgs = filter big vs ++ pad /\ Z.of_nat (length imgs) = mN.

Lemma complete_pattern cs : NoDup cs ->
  (forall u v, In (u, v) (all_pairs cs) -> In u cs /\ In v cs /\ u <> v /\ ~ In (v, u) (all_pairs cs)) /\
  (forall c, In c cs -> NoDup (others cs c) /\ forall v, In v (others cs c) <-> In (c, v) (all_pairs cs) \/ In (v, c) (all_pairs cs)).
Proof.
  intros ND. split; [intros; now apply all_pairs_ok|]. intros c Hc. split; [now apply NoDup_filter|].
  intros v. rewrite others_in. split; [intros [H1 H2]; apply all_pairs_total; auto|].
  intros [H|H]; apply all_pairs_ok in H; auto; intuition congruence.
Qed.
Lemma subdivision_nodup cs E : subdivision g0 adj cs E -> NoDup cs.
Proof. intros (paths & _ & ND & _). now apply NoDup_app_inv in ND. Qed.

Lemma complete_facts n : (4 <= n)%nat -> complete_subdivision g0 adj n -> exists cs, length cs = n /\ NoDup cs /\
  subdivision g0 adj cs (all_pairs cs) /\ (forall c, In c cs -> deg c = Z.of_nat n - 1) /\ (forall v, ~ In v cs -> deg v = 0 \/ deg v = 2).
Proof.
  intros Hn (cs & Lc & S). exists cs. pose proof (subdivision_nodup _ _ S) as ND. split; auto. split; auto. split; auto.
  destruct (complete_pattern cs ND) as [HE Hnb].
  destruct (complete g0 adj R cs (all_pairs cs) (others cs) (all_pairs_nodup cs ND) HE Hnb S) as [_ C].
  destruct C as (C1 & C2 & _).
  { intros c Hc. pose proof (others_len cs c ND Hc). lia. }
  split.
  - intros c Hc. destruct (C1 c Hc) as [E _]. pose proof (others_len cs c ND Hc). unfold ObsP3.deg. lia.
  - intros v Hv. destruct (C2 v Hv) as [E|E]; [left; unfold ObsP3.deg; now rewrite E|right; now apply deg2_deg].
Qed.

Lemma in_ordered n i j : In (i, j) (ordered_pairs n) <-> 0 <= i < Z.of_nat n /\ 0 <= j < Z.of_nat n /\ i <> j.
Proof.
  unfold ordered_pairs. rewrite filter_In, in_prod_iff, !in_map_iff. cbn [fst snd]. rewrite negb_true_iff, Z.eqb_neq. split.
  - intros (((a & <- & Ha) & b & <- & Hb) & N). apply in_seq in Ha, Hb. lia.
  - intros (Hi & Hj & N). split; auto. split; [exists (Z.to_nat i)|exists (Z.to_nat j)]; (split; [lia|apply in_seq; lia]).
Qed.
Lemma im_in l pad i : 0 <= i < Z.of_nat (length l) -> In (im (l ++ pad) i) l.
Proof. intros H. unfold im. rewrite app_nth1 by lia. apply nth_In. lia. Qed.
Lemma im_ex l pad x : In x l -> exists i, 0 <= i < Z.of_nat (length l) /\ im (l ++ pad) i = x.
Proof.
  intros H. apply (In_nth _ _ 0) in H as (i & Hi & <-). exists (Z.of_nat i). split; [lia|]. unfold im. rewrite Nat2Z.id. now rewrite app_nth1.
Qed.
Lemma im_inj l pad i j : NoDup l -> 0 <= i < Z.of_nat (length l) -> 0 <= j < Z.of_nat (length l) -> im (l ++ pad) i = im (l ++ pad) j -> i = j.
Proof.
  intros ND Hi Hj. unfold im. rewrite !app_nth1 by lia. intros E. apply (proj1 (NoDup_nth l 0) ND) in E; lia.
Qed.

Lemma complete_test_ok g n ds imgs : vm g -> (4 <= n)%nat -> image_facts (Z.of_nat n - 1) (Z.of_nat n + 1) ds imgs ->
  exists g' ds' r, _TestForCompleteGraphObstruction g (Z.of_nat n) ds imgs = Ret (g', ds', r) /\ vm g' /\
    (r = C_TRUE \/ r = C_FALSE) /\ (r = C_TRUE <-> complete_subdivision g0 adj n) /\
    (ds' = ds \/ (length ds' = length ds /\ nth (n - 1) ds' 0 = Z.of_nat n /\ nth (n - 1) ds 0 = Z.of_nat n)).
Proof.
  intros F Hn (Hdeg & Hlen & Hcnt & pad & Ei & Li). unfold _TestForCompleteGraphObstruction.
  assert (Nth : forall d, 0 <= d <= Z.of_nat n - 1 -> a_rd ds d = Ret (cnt (fun v => deg v =? d))).
  { intros d Hd. rewrite a_rd_ok by lia. now rewrite Hcnt by lia. }
  assert (Dn : nth (n - 1) ds 0 = cnt (fun v => deg v =? Z.of_nat n - 1)) by (rewrite <- Hcnt by lia; f_equal; lia).
  rewrite Nth by lia. cbn [bind].
  destruct (Z.eqb_spec (cnt (fun v => deg v =? Z.of_nat n - 1)) (Z.of_nat n)) as [E1|E1]; cbn [negb].
  2:{ exists g, ds, C_FALSE. split; auto. split; auto. split; auto. split; [|auto]. split; [discriminate|]. intros S. exfalso.
      destruct (complete_facts n Hn S) as (cs & Lc & ND & _ & A & B). destruct (corner_facts cs (Z.of_nat n - 1) ND) as (_ & Q & _); auto; lia. }
  rewrite !Nth by lia. cbn [bind]. rewrite (vm_N _ _ F).
  destruct (Z.eqb_spec (cnt (fun v => deg v =? 0) + cnt (fun v => deg v =? 2) + cnt (fun v => deg v =? Z.of_nat n - 1)) (gN g0)) as [E2|E2]; cbn [negb].
  2:{ exists g, ds, C_FALSE. split; auto. split; auto. split; auto. split; [|auto]. split; [discriminate|]. intros S. exfalso.
      destruct (complete_facts n Hn S) as (cs & Lc & ND & _ & A & B). apply E2. apply cnt3; try lia.
      intros v _. destruct (in_dec Z.eq_dec v cs) as [I|I]; [rewrite (A v I)|destruct (B v I)]; auto. }
  pose proof (proj1 (cnt3 (Z.of_nat n - 1) ltac:(lia) ltac:(lia)) E2) as D3.
  set (cs := filter big vs) in *.
  assert (NDc : NoDup cs) by apply NoDup_filter, vs_nodup.
  assert (Inc : forall v, In v cs <-> primary g0 v /\ deg v = Z.of_nat n - 1).
  { intros v. unfold cs. rewrite filter_In, (in_vs g0 adj R). unfold ObsP3.big. split; intros [H1 H2]; split; auto; [|lia]. destruct (D3 v H1); lia. }
  assert (Lc : length cs = n).
  { unfold ObsP3.cnt in E1. unfold cs. rewrite (filter_ext_in big (fun v => deg v =? Z.of_nat n - 1)); [lia|].
    intros v Hv. apply (in_vs g0 adj R) in Hv. unfold ObsP3.big. destruct (D3 v Hv); lia. }
  assert (ND2 : forall v, In v cs -> primary g0 v /\ ~ deg2 v) by (intros v Hv; apply Inc in Hv; split; [tauto|]; rewrite deg2_deg; lia).
  assert (Oth : forall v, ~ In v cs -> adj v = [] \/ deg2 v).
  { intros v Hv. destruct (adj v) as [|a l] eqn:Ea; auto. right. assert (Pv : primary g0 v) by (apply (src_prim g0 adj PE v a); rewrite Ea; now left).
    apply deg2_deg. destruct (D3 v Pv) as [Q|[Q|Q]]; auto.
    - unfold ObsP3.deg in Q. rewrite Ea in Q. cbn in Q. lia.
    - exfalso. apply Hv, Inc. auto. }
  pose proof (st_N _ _ (rep_storage _ _ R)) as HN.
  destruct (clear_all_ok g) as (h & -> & Fh & Vh); [rewrite (vm_N _ _ F); lia|]. cbn [bind].
  pose proof (vm_trans _ _ _ F Fh) as F0.
  destruct (test_pairs_ok g0 adj R PE imgs (ordered_pairs (Z.to_nat (Z.of_nat n))) h F0) as (g1 & ok & E & F1 & A & B & M & V).
  { intros i j I. apply in_ordered in I. rewrite Nat2Z.id in I. rewrite Ei in *. rewrite app_length in *. split; [lia|]. split; [lia|].
    apply ND2. apply im_in. lia. }
  rewrite Nat2Z.id in *. rewrite E. cbn [bind].
  destruct (complete_pattern cs NDc) as [HE Hnb].
  assert (V0 : forall x, visited h x = true -> primary g0 x -> False).
  { intros x Hx Px. rewrite Vh in Hx; [discriminate|]. unfold primary in *. now rewrite (vm_N _ _ F). }
  assert (VD : forall x, primary g0 x -> visited g1 x = true -> exists i j l, In (i, j) (ordered_pairs n) /\ proper (im imgs i) l (im imgs j) /\ In x (internals l)).
  { intros x Px Hx. destruct (V x Hx) as [Q|Q]; auto. exfalso; eauto. }
  assert (Link : complete_subdivision g0 adj n -> (forall u v, In u cs -> In v cs -> u <> v -> exists l, proper u l v) /\
     (forall x, deg2 x -> exists u l v, In u cs /\ In v cs /\ u <> v /\ proper u l v /\ In x (internals l)) /\
     (forall u l l' v, In u cs -> proper u l v -> proper u l' v -> l = l')).
  { intros S. destruct (complete_facts n Hn S) as (cs' & Lc' & ND' & S' & A' & B'). destruct (corner_facts cs' (Z.of_nat n - 1) ND') as (Q & _); auto; [lia|].
    destruct (complete_pattern cs' ND') as [HE' Hnb'].
    destruct (complete g0 adj R cs' (all_pairs cs') (others cs') (all_pairs_nodup cs' ND') HE' Hnb' S') as [_ C].
    destruct C as (_ & _ & C3 & C4 & _ & C6).
    { intros c Hc. pose proof (others_len cs' c ND' Hc). lia. }
    split; [|split].
    - intros u v Hu Hv N. destruct (all_pairs_total cs' u v) as [I|I]; auto; try (eapply Permutation_in; eauto; fail).
      destruct (C3 _ _ I) as (l & Pl). exists (rev (map twin l)). now apply proper_rev.
    - intros x Hx. destruct (C4 x Hx) as (u & l & v & I & X). destruct (HE' _ _ I) as (I1 & I2 & I3 & _).
      exists u, l, v. split; [eapply Permutation_in; [apply Permutation_sym|]; eauto|]. split; [eapply Permutation_in; [apply Permutation_sym|]; eauto|]. auto.
    - intros u l l' v Hu. apply C6. eapply Permutation_in; eauto. }
  destruct ok; cbn [negb].
  2:{ exists g1, ds, C_FALSE. split; auto. split; auto. split; auto. split; [|auto]. split; [discriminate|]. intros S. exfalso.
      destruct (B eq_refl) as (i & j & I & N). apply in_ordered in I. destruct (Link S) as (L1 & _).
      destruct (L1 (im imgs i) (im imgs j)) as (l & Pl); [rewrite Ei; apply im_in; lia|rewrite Ei; apply im_in; lia| |exact (N l Pl)].
      intros Q. rewrite Ei in Q. apply im_inj in Q; auto; lia. }
  rewrite (count_visited_ok g0 adj R g1 _ F1). cbn [bind]. rewrite a_wr_ok by lia. cbn [bind].
  eexists _, _, _. split; [reflexivity|]. split; auto.
  assert (VV : forall x, primary g0 x -> visited g1 x = true -> deg2 x).
  { intros x Px Hx. destruct (VD x Px Hx) as (i & j & l & _ & Pl & Il). eapply internal_deg2; eauto. }
  assert (Full : cnt (fun v => deg v =? 2) - cnt (visited g1) = 0 <-> forall x, deg2 x -> visited g1 x = true).
  { unfold ObsP3.cnt. assert (V' : forall x, In x vs -> visited g1 x = true -> (deg x =? 2) = true).
    { intros x Hx H. apply Z.eqb_eq. apply deg2_deg. apply VV; auto. now apply (in_vs g0 adj R). }
    split.
    - intros Q x Hx. apply (cnt_same (visited g1) (fun v => deg v =? 2) vs V'); [lia| |apply Z.eqb_eq; now apply deg2_deg].
      apply (in_vs g0 adj R). apply deg_prim. apply deg2_deg in Hx. lia.
    - intros H. pose proof (cnt_vs _ _ _ V') as L1.
      assert (L2 : (length (filter (fun v => (deg v =? 2)%Z) vs) <= length (filter (visited g1) vs))%nat).
      { apply cnt_vs. intros x _ Q. apply H. apply deg2_deg. lia. }
      lia. }
  split; [destruct (_ =? 0); auto|]. split.
  - split.
    + intros Q. assert (Z0 : cnt (fun v => deg v =? 2) - cnt (visited g1) = 0) by (destruct (Z.eqb_spec (cnt (fun v => deg v =? 2) - cnt (visited g1)) 0); auto; discriminate).
      pose proof (proj1 Full Z0) as AV. exists cs. split; auto.
      apply (sound g0 adj R cs (all_pairs cs) (others cs)); auto.
      * now apply all_pairs_nodup.
      * intros c Hc. split; [|now apply ND2]. pose proof (others_len cs c NDc Hc). apply Inc in Hc as [_ Hc]. unfold ObsP3.deg in Hc. lia.
      * intros u v I. destruct (HE _ _ I) as (I1 & I2 & I3 & _). destruct (im_ex cs pad u I1) as (i & Hi & Eu). destruct (im_ex cs pad v I2) as (j & Hj & Ev).
        destruct (A eq_refl i j) as (l & Pl & _); [apply in_ordered; rewrite Lc in *; split; auto; split; auto; congruence|].
        rewrite Ei, Eu, Ev in Pl. eauto.
      * intros x Hx. destruct (VD x) as (i & j & l & I & Pl & Il); [apply deg_prim; apply deg2_deg in Hx; lia|auto|].
        apply in_ordered in I. exists (im imgs i), l, (im imgs j). split; auto. rewrite Ei. apply im_in. lia.
    + intros S. destruct (Link S) as (_ & L2 & L3). rewrite (proj2 (Z.eqb_eq _ _)); auto. apply Full. intros x Hx.
      destruct (L2 x Hx) as (u & l & v & Hu & Hv & N & Pl & Il). destruct (im_ex cs pad u Hu) as (i & Hi & Eu). destruct (im_ex cs pad v Hv) as (j & Hj & Ev).
      destruct (A eq_refl i j) as (l' & Pl' & Al'); [apply in_ordered; rewrite Lc in *; split; auto; split; auto; congruence|].
      rewrite Ei, Eu, Ev in Pl'. rewrite <- (L3 u l l' v Hu Pl Pl') in Al'. auto.
  - right. rewrite list_set_len. split; auto. rewrite Dn. split; auto. rewrite list_set_nth.
    replace (Nat.eqb (n - 1) (Z.to_nat 2)) with false by (symmetry; apply Nat.eqb_neq; lia). cbn [andb]. rewrite Dn. auto.
Qed.
End Tests.
