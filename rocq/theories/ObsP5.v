(** * ObsP5: the test for subdivisions of K3,3 and the Kuratowski check. *)
From Coq Require Import ZifyBool Permutation.
From Verif Require Import Base BaseP GraphRec GraphM GraphSpec GSimp LinkP GraphP GraphP2 GraphP3 GraphP5
  DFSM DFSSpec DFSP DFSP2 RandP2 TestM TestSpec OrbitP TestP TestP2 TestP3 TestP4 ObsSpec ObsP ObsP2 ObsP3 ObsP4.

Lemma perm_filter (f : Z -> bool) l l' : Permutation l l' -> length (filter f l) = length (filter f l').
Proof.
  induction 1 as [|x l l' P IH|x y l|]; cbn [filter]; auto; try congruence.
  - destruct (f x); cbn; congruence.
  - destruct (f x), (f y); auto.
Qed.
Definition oppo (a b : list Z) (c : Z) : list Z := if in_dec Z.eq_dec c a then b else a.
Lemma bip_pattern a b : NoDup (a ++ b) ->
  NoDup (list_prod a b) /\
  (forall u v, In (u, v) (list_prod a b) -> In u (a ++ b) /\ In v (a ++ b) /\ u <> v /\ ~ In (v, u) (list_prod a b)) /\
  (forall c, In c (a ++ b) -> NoDup (oppo a b c) /\ forall v, In v (oppo a b c) <-> In (c, v) (list_prod a b) \/ In (v, c) (list_prod a b)).
Proof.
  intros ND. apply NoDup_app_inv in ND as (Na & Nb & D). split; [now apply list_prod_nodup|]. split.
  - intros u v H. rewrite !in_prod_iff in *. rewrite !in_app_iff. split; [tauto|]. split; [tauto|].
    split; [intros ->; apply (D v); tauto|]. intros [H1 H2]. apply (D v); tauto.
  - intros c Hc. unfold oppo. destruct (in_dec Z.eq_dec c a) as [I|I]; (split; [auto|]); intros v; rewrite !in_prod_iff; [|rewrite in_app_iff in Hc; tauto].
    split; [tauto|]. intros [H|[_ H]]; [tauto|]. exfalso; eauto.
Qed.

Section Tests.
Variables (g0 : graph) (adj : Z -> list Z).
Hypothesis R : rep g0 adj.
Hypothesis PE : primary_edges g0 adj.
Notation hv := (enbr g0).
Notation deg2 := (deg2 adj).
Notation proper := (proper g0 adj).
Notation internals := (internals g0).
Notation vm := (vertex_marks_only g0).
Notation deg := (deg adj).
Notation big := (big adj).
Notation cnt := (cnt g0).
Notation vs := (vs g0).
Notation image_facts := (image_facts g0 adj).

Lemma visited_full g : (forall x, primary g0 x -> visited g x = true -> deg2 x) ->
  (cnt (fun v => deg v =? 2) - cnt (visited g) = 0 <-> forall x, deg2 x -> visited g x = true).
Proof.
  intros VV. unfold ObsP3.cnt. assert (V' : forall x, In x vs -> visited g x = true -> (deg x =? 2) = true).
  { intros x Hx H. apply Z.eqb_eq. apply deg2_deg. apply VV; auto. now apply (in_vs g0 adj R). }
  split.
  - intros Q x Hx. apply (cnt_same (visited g) (fun v => deg v =? 2) vs V'); [lia| |apply Z.eqb_eq; now apply deg2_deg].
    apply (in_vs g0 adj R). apply (deg_prim g0 adj PE). apply deg2_deg in Hx. lia.
  - intros H. pose proof (cnt_vs _ _ _ V') as L1.
    assert (L2 : (length (filter (fun v => (deg v =? 2)%Z) vs) <= length (filter (visited g) vs))%nat).
    { apply cnt_vs. intros x _ Q. apply H. apply deg2_deg. lia. }
    lia.
Qed.

(** ** K3,3 *)
Definition linked (u v : Z) : Prop := exists l, proper u l v.
Lemma linked_sym u v : linked u v -> linked v u.
Proof. intros (l & H). exists (rev (map twin l)). now apply proper_rev. Qed.

Lemma k33_facts : bipartite_subdivision g0 adj 3 3 -> exists a b, length a = 3%nat /\ length b = 3%nat /\ NoDup (a ++ b) /\
  (forall c, In c (a ++ b) -> deg c = 3) /\ (forall v, ~ In v (a ++ b) -> deg v = 0 \/ deg v = 2) /\
  (forall u v, In u (a ++ b) -> linked u v <-> In v (oppo a b u)) /\
  (forall x, deg2 x -> exists u l v, In u a /\ In v b /\ proper u l v /\ In x (internals l)) /\
  (forall u l l' v, In u (a ++ b) -> proper u l v -> proper u l' v -> l = l').
Proof.
  intros (a & b & La & Lb & S). exists a, b. split; auto. split; auto.
  pose proof (subdivision_nodup _ _ _ _ S) as ND. split; auto.
  destruct (bip_pattern a b ND) as (NE & HE & Hnb).
  assert (Lo : forall c, length (oppo a b c) = 3%nat) by (intros c; unfold oppo; destruct (in_dec _ _ _); auto).
  destruct (complete g0 adj R (a ++ b) (list_prod a b) (oppo a b) NE HE Hnb S) as [_ C].
  destruct C as (C1 & C2 & C3 & C4 & C5 & C6); [intros c _; rewrite Lo; lia|].
  split; [|split; [|split; [|split]]].
  - intros c Hc. destruct (C1 c Hc) as [E _]. rewrite Lo in E. unfold ObsP3.deg. lia.
  - intros v Hv. destruct (C2 v Hv) as [E|E]; [left; unfold ObsP3.deg; now rewrite E|right; now apply deg2_deg].
  - intros u v Hu. split; [intros (l & Pl); eauto|]. intros Hv. apply (Hnb u Hu) in Hv as [I|I]; destruct (C3 _ _ I) as (l & Pl); [exists l; auto|].
    apply linked_sym. exists l; auto.
  - intros x Hx. destruct (C4 x Hx) as (u & l & v & I & X). apply in_prod_iff in I. exists u, l, v. tauto.
  - exact C6.
Qed.

Ltac rda := match goal with
  | |- context [a_rd ?l ?i] => let x := eval cbv in (a_rd l i) in change (a_rd l i) with x
  | |- context [a_wr ?l ?i ?y] => let x := eval cbv in (a_wr l i y) in change (a_wr l i y) with x
  end.

Ltac imc H := match type of H with context [im ?l ?p] => let x := eval cbv in (im l p) in change (im l p) with x in H end.
Ltac img := match goal with |- context [im ?l ?p] => let x := eval cbv in (im l p) in change (im l p) with x end.
Ltac perm := match goal with
  | |- Permutation [] [] => apply perm_nil
  | |- Permutation (?x :: ?l) ?r =>
    let rec go pre t := match t with
      | x :: ?t' => apply (Permutation_cons_app (l := l) pre t' x); cbn [app]; perm
      | ?y :: ?t' => let pre' := eval cbn [app] in (pre ++ [y]) in go pre' t'
      end in go (@nil Z) r
  end.

Definition find_post (x0 x1 x2 x3 x4 x5 pos : Z) (imgs' : list Z) (ok : bool) : Prop :=
  let imgs := [x0; x1; x2; x3; x4; x5] in
  (ok = true -> exists y1 y2 y3 y4 y5, imgs' = [x0; y1; y2; y3; y4; y5] /\ Permutation imgs imgs' /\
    (pos = 3 \/ y3 = x3) /\ (pos = 4 \/ y4 = x4) /\ (pos = 5 \/ y5 = x5) /\ linked (im imgs' pos) x0) /\
  (ok = false -> ~ linked x1 x0 /\ ~ linked x2 x0 /\ ~ linked (im imgs pos) x0).
Lemma find_ok pos x0 x1 x2 x3 x4 x5 g : vm g -> pos = 3 \/ pos = 4 \/ pos = 5 ->
  (forall x, In x [x0; x1; x2; x3; x4; x5] -> primary g0 x /\ ~ deg2 x) ->
  exists g' imgs' ok, k33_find_loop 4 g [x0; x1; x2; x3; x4; x5] pos 0 = Ret (g', imgs', ok) /\ vm g' /\ find_post x0 x1 x2 x3 x4 x5 pos imgs' ok.
Proof.
  intros F Hp H.
  assert (Hx : forall x, In x [x0; x1; x2; x3; x4; x5] -> forall g, vm g -> exists g' r, _TestPath g x x0 = Ret (g', r) /\ vm g' /\
     ((r = C_TRUE /\ linked x x0) \/ (r = C_FALSE /\ ~ linked x x0))).
  { intros x Ix h Fh. destruct (H x Ix) as [A B]. destruct (test_path_ok g0 adj R PE x x0 h Fh A B) as (g' & r & E & F' & X).
    exists g', r. split; auto. split; auto. destruct X as [(-> & l & Pl & _)|(-> & _ & N)]; [left; split; auto; exists l; auto|].
    right. split; auto. intros (l & Pl). exact (N l Pl). }
  assert (Gx : forall x imgs' g', im imgs' pos = x -> vm g' -> linked x x0 ->
     (exists y1 y2 y3 y4 y5, imgs' = [x0; y1; y2; y3; y4; y5] /\ Permutation [x0; x1; x2; x3; x4; x5] imgs' /\
       (pos = 3 \/ y3 = x3) /\ (pos = 4 \/ y4 = x4) /\ (pos = 5 \/ y5 = x5)) ->
     exists gg imgs'' ok, Ret (g', imgs', true) = Ret (gg, imgs'', ok) /\ vm gg /\ find_post x0 x1 x2 x3 x4 x5 pos imgs'' ok).
  { intros x imgs' g' E F' L (y1 & y2 & y3 & y4 & y5 & Q1 & Q2 & Q3 & Q4 & Q5). exists g', imgs', true. split; auto. split; auto. split; [|discriminate].
    intros _. exists y1, y2, y3, y4, y5. rewrite E. repeat (split; auto). }
  destruct Hp as [-> | [-> | ->]]; cbn [k33_find_loop]; repeat rda; cbn [bind];
  match goal with |- context [_TestPath g ?x x0] => destruct (Hx x ltac:(cbn; auto 8) g F) as (g1 & r & -> & F1 & X) end; cbn [bind];
  (destruct X as [(-> & L)|(-> & L)]; [change (C_TRUE =? C_TRUE) with true|change (C_FALSE =? C_TRUE) with false]; cbv iota;
   [eapply Gx; [reflexivity|auto|exact L|]; eexists _, _, _, _, _; split; [reflexivity|]; split; [perm|auto 6]|]);
  repeat rda; cbn [bind]; repeat rda; cbn [bind]; change (0 + 1 <? 3) with true; cbv iota; repeat rda; cbn [bind];
  (destruct (Hx x1 ltac:(cbn; auto 8) g1 F1) as (g2 & r & -> & F2 & X); cbn [bind]);
  (destruct X as [(-> & L')|(-> & L')]; [change (C_TRUE =? C_TRUE) with true|change (C_FALSE =? C_TRUE) with false]; cbv iota;
   [eapply Gx; [reflexivity|auto|exact L'|]; eexists _, _, _, _, _; split; [reflexivity|]; split; [perm|auto 6]|]);
  repeat rda; cbn [bind]; repeat rda; cbn [bind]; change (0 + 1 + 1 <? 3) with true; cbv iota; repeat rda; cbn [bind];
  (destruct (Hx x2 ltac:(cbn; auto 8) g2 F2) as (g3 & r & -> & F3 & X); cbn [bind]);
  (destruct X as [(-> & L'')|(-> & L'')]; [change (C_TRUE =? C_TRUE) with true|change (C_FALSE =? C_TRUE) with false]; cbv iota;
   [eapply Gx; [reflexivity|auto|exact L''|]; eexists _, _, _, _, _; split; [reflexivity|]; split; [perm|auto 6]|]);
  repeat rda; cbn [bind]; repeat rda; cbn [bind]; change (0 + 1 + 1 + 1 <? 3) with false; cbv iota;
  eexists _, _, _; (split; [reflexivity|]); (split; [auto|]); (split; [discriminate|]); intros _; auto.
Qed.

Lemma k33_test_ok g ds imgs : vm g -> image_facts 4 6 ds imgs ->
  exists g' r, _TestForK33GraphObstruction g ds imgs = Ret (g', r) /\ vm g' /\ (r = C_TRUE \/ r = C_FALSE) /\
    (r = C_TRUE <-> bipartite_subdivision g0 adj 3 3).
Proof.
  intros F (Hdeg & Hlen & Hcnt & pad & Ei & Li). unfold _TestForK33GraphObstruction.
  assert (Nth : forall d, 0 <= d <= 4 -> a_rd ds d = Ret (cnt (fun v => deg v =? d))).
  { intros d Hd. rewrite a_rd_ok by lia. now rewrite Hcnt by lia. }
  rewrite !Nth by lia. cbn [bind].
  assert (Cor : bipartite_subdivision g0 adj 3 3 -> cnt (fun v => deg v =? 4) = 0 /\ cnt (fun v => deg v =? 3) = 6).
  { intros S. destruct (k33_facts S) as (a & b & La & Lb & ND & D3 & Do & _). destruct (corner_facts g0 adj R PE (a ++ b) 3 ND) as (_ & Q1 & Q2); auto; [lia|].
    rewrite Q1, app_length, La, Lb. split; auto. apply Q2; lia. }
  destruct (Z.eqb_spec (cnt (fun v => deg v =? 4)) 0) as [E4|E4]; cbn [negb].
  2:{ exists g, C_FALSE. split; auto. split; auto. split; auto. split; [discriminate|]. intros S. destruct (Cor S). congruence. }
  destruct (Z.eqb_spec (cnt (fun v => deg v =? 3)) 6) as [E3|E3]; cbn [negb].
  2:{ exists g, C_FALSE. split; auto. split; auto. split; auto. split; [discriminate|]. intros S. destruct (Cor S). congruence. }
  (* the six vertices *)
  set (cs := filter big vs) in *.
  assert (D03 : forall v, primary g0 v -> deg v = 0 \/ deg v = 2 \/ deg v = 3).
  { intros v Hv. destruct (Hdeg v Hv). assert (deg v <> 4).
    { intros Q. unfold ObsP3.cnt in E4. assert (I : In v (filter (fun v => deg v =? 4) vs)) by (apply filter_In; split; [now apply (in_vs g0 adj R)|lia]).
      destruct (filter (fun v => deg v =? 4) vs); [destruct I|cbn in E4; lia]. }
    assert (0 <= deg v) by (unfold ObsP3.deg; lia). lia. }
  assert (NDc : NoDup cs) by apply NoDup_filter, vs_nodup.
  assert (Inc : forall v, In v cs <-> primary g0 v /\ deg v = 3).
  { intros v. unfold cs. rewrite filter_In, (in_vs g0 adj R). unfold ObsP3.big. split; intros [H1 H2]; split; auto; [|lia]. destruct (D03 v H1); lia. }
  assert (Lc : length cs = 6%nat).
  { unfold ObsP3.cnt in E3. unfold cs. rewrite (filter_ext_in big (fun v => deg v =? 3)); [lia|].
    intros v Hv. apply (in_vs g0 adj R) in Hv. unfold ObsP3.big. destruct (D03 v Hv); lia. }
  assert (ND2 : forall v, In v cs -> primary g0 v /\ ~ deg2 v) by (intros v Hv; apply Inc in Hv; split; [tauto|]; rewrite deg2_deg; lia).
  assert (Oth : forall v, ~ In v cs -> adj v = [] \/ deg2 v).
  { intros v Hv. destruct (adj v) as [|a l] eqn:Ea; auto. right. assert (Pv : primary g0 v) by (apply (src_prim g0 adj PE v a); rewrite Ea; now left).
    apply deg2_deg. destruct (D03 v Pv) as [Q|[Q|Q]]; auto.
    - unfold ObsP3.deg in Q. rewrite Ea in Q. cbn in Q. lia.
    - exfalso. apply Hv, Inc. auto. }
  assert (pad = []) by (rewrite Ei, app_length in Li; destruct pad; auto; cbn in Li; lia). subst pad. rewrite app_nil_r in Ei.
  (* what a subdivision says about them *)
  assert (Cnt3 : bipartite_subdivision g0 adj 3 3 -> forall x0, In x0 cs -> exists lk : Z -> bool,
     lk x0 = false /\ length (filter lk cs) = 3%nat /\ (forall x, In x cs -> linked x x0 <-> lk x = true) /\
     (forall x y, In x cs -> In y cs -> lk x = false -> lk y = true -> linked x y) /\
     (forall x, deg2 x -> exists u l v, In u cs /\ In v cs /\ lk u = false /\ lk v = true /\ proper u l v /\ In x (internals l)) /\
     (forall u l l' v, In u cs -> proper u l v -> proper u l' v -> l = l')).
  { intros S x0 Hx0. destruct (k33_facts S) as (a & b & La & Lb & ND & D3 & Do & Lk & Cv & Un).
    destruct (corner_facts g0 adj R PE (a ++ b) 3 ND) as (Q & _); auto; [lia|]. fold cs in Q.
    assert (Qi : forall x, In x cs -> In x (a ++ b)) by (intros x; apply Permutation_in; auto).
    assert (Qj : forall x, In x (a ++ b) -> In x cs) by (intros x; apply Permutation_in, Permutation_sym; auto).
    destruct (bip_pattern a b ND) as (_ & HE & Hnb). pose proof ND as ND'. apply NoDup_app_inv in ND' as (Na & Nb & Dj).
    set (lk := fun x => if in_dec Z.eq_dec x (oppo a b x0) then true else false).
    assert (Elk : forall x, lk x = true <-> In x (oppo a b x0)) by (intros x; unfold lk; destruct (in_dec _ _ _); split; auto; discriminate).
    exists lk. split; [|split; [|split; [|split; [|split]]]].
    - destruct (lk x0) eqn:E; auto. apply Elk in E. apply Hnb in E; auto. rewrite !in_prod_iff in E. exfalso. apply (Dj x0); tauto.
    - assert (P3 : Permutation (filter lk cs) (oppo a b x0)).
      { apply NoDup_Permutation; [now apply NoDup_filter|apply Hnb; auto|]. intros x. rewrite filter_In, Elk. split; [tauto|].
        intros H; split; auto. apply Qj. apply Hnb in H; auto. rewrite !in_prod_iff in H. apply in_app_iff. tauto. }
      rewrite (Permutation_length P3). unfold oppo. destruct (in_dec _ _ _); auto.
    - intros x Hx. rewrite Elk. rewrite (Lk x x0 (Qi _ Hx)). rewrite (proj2 (Hnb x (Qi _ Hx))), (proj2 (Hnb x0 (Qi _ Hx0))). tauto.
    - intros x y Hx Hy E1 E2. apply Lk; auto. apply Elk in E2.
      assert (N1 : ~ In x (oppo a b x0)) by (intros I; apply Elk in I; congruence).
      pose proof (Qi _ Hx) as I1. apply in_app_iff in I1. unfold oppo in *.
      destruct (in_dec Z.eq_dec x0 a) as [K|K], (in_dec Z.eq_dec x a) as [K'|K']; tauto.
    - intros x Hx. destruct (Cv x Hx) as (u & l & v & Iu & Iv & Pl & Il).
      destruct (in_dec Z.eq_dec x0 a) as [K|K].
      + exists u, l, v. split; [apply Qj, in_app_iff; auto|]. split; [apply Qj, in_app_iff; auto|].
        assert (O : oppo a b x0 = b) by (unfold oppo; destruct (in_dec _ _ _); tauto). split; [|split; auto].
        * destruct (lk u) eqn:E; auto. apply Elk in E. rewrite O in E. exfalso; eauto.
        * apply Elk. now rewrite O.
      + assert (O : oppo a b x0 = a) by (unfold oppo; destruct (in_dec _ _ _); tauto).
        exists v, (rev (map twin l)), u. split; [apply Qj, in_app_iff; auto|]. split; [apply Qj, in_app_iff; auto|]. split; [|split; [|split]].
        * destruct (lk v) eqn:E; auto. apply Elk in E. rewrite O in E. exfalso; eauto.
        * apply Elk. now rewrite O.
        * now apply proper_rev.
        * clear -Il Pl R. apply internal_split in Il as (l1 & e & f & l2 & -> & <-).
          rewrite map_app, rev_app_distr. cbn [map rev]. rewrite <- !app_assoc. cbn [app].
          destruct (path_mid g0 adj _ _ _ _ _ _ (proj1 Pl)) as [I _]. rewrite <- (arc_tail g0 adj R _ _ I). apply internal_intro.
    - intros u l l' v Hu. apply Un; auto. }
  destruct cs as [|x0 [|x1 [|x2 [|x3 [|x4 [|x5 [|? ?]]]]]]]; try discriminate Lc. rewrite Ei. clear Lc Li Ei imgs.
  destruct (find_ok 3 x0 x1 x2 x3 x4 x5 g F) as (g1 & i1 & ok1 & -> & F1 & A1 & B1); auto. cbn [bind].
  assert (Perm : forall y1 y2 y3 y4 y5, Permutation [x0; x1; x2; x3; x4; x5] [x0; y1; y2; y3; y4; y5] -> forall x, In x [x0; y1; y2; y3; y4; y5] -> primary g0 x /\ ~ deg2 x).
  { intros y1 y2 y3 y4 y5 P x Hx. apply ND2. eapply Permutation_in; [apply Permutation_sym; exact P|auto]. }
  (* one round that fails *)
  assert (Fail : forall y1 y2 y3 y4 y5, Permutation [x0; x1; x2; x3; x4; x5] [x0; y1; y2; y3; y4; y5] ->
     bipartite_subdivision g0 adj 3 3 -> exists lk : Z -> bool, (forall x, In x [y1; y2; y3; y4; y5] -> linked x x0 <-> lk x = true) /\ length (filter lk [y1; y2; y3; y4; y5]) = 3%nat).
  { intros y1 y2 y3 y4 y5 P S. destruct (Cnt3 S x0) as (lk & E0 & L3 & Lk & _); [now left|]. exists lk. split.
    - intros x Hx. apply Lk. eapply Permutation_in; [apply Permutation_sym; exact P|now right].
    - apply (perm_filter lk) in P. rewrite L3 in P. cbn [filter] in P. rewrite E0 in P. cbn [filter]. lia. }
  assert (FailX : forall y1 y2 y3 y4 y5 p, Permutation [x0; x1; x2; x3; x4; x5] [x0; y1; y2; y3; y4; y5] ->
     p = 3 \/ p = 4 \/ p = 5 -> ~ linked y1 x0 /\ ~ linked y2 x0 /\ ~ linked (im [x0; y1; y2; y3; y4; y5] p) x0 -> ~ bipartite_subdivision g0 adj 3 3).
  { intros y1 y2 y3 y4 y5 p P Hp (N1 & N2 & N3) S. destruct (Fail _ _ _ _ _ P S) as (lk & Lk & L3).
    assert (K : forall x, In x [y1; y2; y3; y4; y5] -> ~ linked x x0 -> lk x = false).
    { intros x Hx N. destruct (lk x) eqn:E; auto. exfalso. apply N, Lk; auto. }
    cbn [filter] in L3. rewrite (K y1), (K y2) in L3 by (auto; cbn; auto).
    destruct Hp as [-> | [-> | ->]]; imc N3; apply K in N3; cbn; auto 6; rewrite N3 in L3;
      repeat match type of L3 with context [lk ?y] => destruct (lk y) end; cbn in L3; lia. }
  destruct ok1; cbn [negb].
  2:{ exists g1, C_FALSE. split; auto. split; auto. split; auto. split; [discriminate|]. intros S. exfalso.
      eapply FailX; [apply Permutation_refl| |apply (B1 eq_refl)|exact S]; auto. }
  destruct (A1 eq_refl) as (y1 & y2 & y3 & y4 & y5 & -> & P1 & _ & _ & _ & K3). imc K3. clear A1 B1.
  destruct (find_ok 4 x0 y1 y2 y3 y4 y5 g1 F1) as (g2 & i2 & ok2 & -> & F2 & A2 & B2); auto; [eapply Perm; eauto|]. cbn [bind].
  destruct ok2; cbn [negb].
  2:{ exists g2, C_FALSE. split; auto. split; auto. split; auto. split; [discriminate|]. intros S. exfalso.
      eapply FailX; [exact P1| |apply (B2 eq_refl)|exact S]; auto. }
  destruct (A2 eq_refl) as (z1 & z2 & z3 & z4 & z5 & -> & P2 & E3' & _ & _ & K4). imc K4. clear A2 B2.
  destruct E3' as [?|E3']; [lia|]. subst z3. pose proof (Permutation_trans P1 P2) as P12.
  destruct (find_ok 5 x0 z1 z2 y3 z4 z5 g2 F2) as (g3 & i3 & ok3 & -> & F3 & A3 & B3); auto; [eapply Perm; eauto|]. cbn [bind].
  destruct ok3; cbn [negb].
  2:{ exists g3, C_FALSE. split; auto. split; auto. split; auto. split; [discriminate|]. intros S. exfalso.
      eapply FailX; [exact P12| |apply (B3 eq_refl)|exact S]; auto. }
  destruct (A3 eq_refl) as (w1 & w2 & w3 & w4 & w5 & -> & P3 & E3'' & E4'' & _ & K5). imc K5. clear A3 B3.
  destruct E3'' as [?|E3'']; [lia|]. destruct E4'' as [?|E4'']; [lia|]. subst w3 w4. pose proof (Permutation_trans P12 P3) as P.
  clear P1 P2 P3 P12. rename z4 into y4', y3 into y3'. 
  pose proof (st_N _ _ (rep_storage _ _ R)) as HN.
  destruct (clear_all_ok g3) as (h & -> & Fh & Vh); [rewrite (vm_N _ _ F3); lia|]. cbn [bind].
  pose proof (vm_trans _ _ _ F3 Fh) as F0.
  set (imgs := [x0; w1; w2; y3'; y4'; w5]) in *.
  assert (Ind : forall i j, In (i, j) (list_prod [0; 1; 2] [3; 4; 5]) -> 0 <= i < 6 /\ 0 <= j < 6 /\ In (im imgs i) [x0; w1; w2] /\ In (im imgs j) [y3'; y4'; w5]).
  { intros i j I. apply in_prod_iff in I as [I J]. cbn in I, J.
    unfold imgs. destruct I as [<-|[<-|[<-|[]]]], J as [<-|[<-|[<-|[]]]]; repeat img; cbn; (split; [lia|]; split; [lia|]; auto). }
  assert (Ex : forall u v, In u [x0; w1; w2] -> In v [y3'; y4'; w5] -> exists i j, In (i, j) (list_prod [0; 1; 2] [3; 4; 5]) /\ im imgs i = u /\ im imgs j = v).
  { intros u v Hu Hv.
    assert (Ei : exists i, In i [0; 1; 2] /\ im imgs i = u) by (destruct Hu as [<-|[<-|[<-|[]]]]; [exists 0|exists 1|exists 2]; unfold imgs; img; cbn; auto).
    assert (Ej : exists j, In j [3; 4; 5] /\ im imgs j = v) by (destruct Hv as [<-|[<-|[<-|[]]]]; [exists 3|exists 4|exists 5]; unfold imgs; img; cbn; auto).
    destruct Ei as (i & I1 & I2), Ej as (j & J1 & J2). exists i, j. split; auto. apply in_prod_iff. auto. }
  assert (Pin : forall x, In x imgs -> In x [x0; x1; x2; x3; x4; x5]) by (intros x Hx; eapply Permutation_in; [apply Permutation_sym; exact P|auto]).
  destruct (test_pairs_ok g0 adj R PE imgs (list_prod [0; 1; 2] [3; 4; 5]) h F0) as (g4 & ok & E & F4 & A & B & M & V).
  { intros i j I. destruct (Ind i j I) as (H1 & H2 & H3 & _). split; [auto|]. split; [auto|]. apply ND2, Pin. cbn in *. tauto. }
  rewrite E. cbn [bind].
  (* the subdivision the code has found *)
  assert (NDi : NoDup ([x0; w1; w2] ++ [y3'; y4'; w5])) by (apply (Permutation_NoDup P); auto).
  assert (Sd : bipartite_subdivision g0 adj 3 3 ->
     (forall u v, In u [x0; w1; w2] -> In v [y3'; y4'; w5] -> linked u v) /\
     (forall x, deg2 x -> exists u l v, In u [x0; w1; w2] /\ In v [y3'; y4'; w5] /\ proper u l v /\ In x (internals l)) /\
     (forall u l l' v, In u imgs -> proper u l v -> proper u l' v -> l = l')).
  { intros S. destruct (Cnt3 S x0) as (lk & E0 & L3 & Lk & Lp & Lc & Lu); [now left|].
    assert (T3 : lk y3' = true /\ lk y4' = true /\ lk w5 = true) by (split; [|split]; apply Lk; auto; apply Pin; cbn; auto 8).
    destruct T3 as (T3 & T4 & T5).
    pose proof (perm_filter lk _ _ P) as PL. rewrite L3 in PL. unfold imgs in PL. cbn [filter] in PL. rewrite E0, T3, T4, T5 in PL.
    assert (T1 : lk w1 = false /\ lk w2 = false) by (destruct (lk w1), (lk w2); cbn in PL; try lia; auto).
    destruct T1 as [T1 T2]. split; [|split].
    - intros u v Hu Hv. apply Lp; [apply Pin; cbn in *; tauto|apply Pin; cbn in *; tauto| |].
      + destruct Hu as [<-|[<-|[<-|[]]]]; auto.
      + destruct Hv as [<-|[<-|[<-|[]]]]; auto.
    - intros x Hx. destruct (Lc x Hx) as (u & l & v & Iu & Iv & Eu & Ev & X). exists u, l, v.
      apply (Permutation_in _ P) in Iu. apply (Permutation_in _ P) in Iv. unfold imgs in Iu, Iv. cbn [In] in *.
      split; [|split; [|exact X]].
      + destruct Iu as [<-|[<-|[<-|[<-|[<-|[<-|[]]]]]]]; auto; congruence.
      + destruct Iv as [<-|[<-|[<-|[<-|[<-|[<-|[]]]]]]]; auto; congruence.
    - intros u l l' v Hu. apply Lu. auto. }
  destruct ok; cbn [negb].
  2:{ exists g4, C_FALSE. split; auto. split; auto. split; auto. split; [discriminate|]. intros S. exfalso.
      destruct (B eq_refl) as (i & j & I & N). destruct (Ind i j I) as (_ & _ & I1 & I2). destruct (Sd S) as (L1 & _).
      destruct (L1 _ _ I1 I2) as (l & Pl). exact (N l Pl). }
  cbn [bind]. rewrite (count_visited_ok g0 adj R g4 _ F4). cbn [bind].
  eexists _, _. split; [reflexivity|]. split; auto. split; [destruct (_ =? 0); auto|].
  assert (VD : forall x, primary g0 x -> visited g4 x = true -> exists i j l, In (i, j) (list_prod [0; 1; 2] [3; 4; 5]) /\ proper (im imgs i) l (im imgs j) /\ In x (internals l)).
  { intros x Px Hx. destruct (V x Hx) as [Q|Q]; auto. exfalso. rewrite Vh in Q; [discriminate|]. unfold primary in *. now rewrite (vm_N _ _ F3). }
  assert (Full : cnt (fun v => deg v =? 2) - cnt (visited g4) = 0 <-> forall x, deg2 x -> visited g4 x = true).
  { apply visited_full. intros x Px Hx. destruct (VD x Px Hx) as (i & j & l & _ & Pl & Il). eapply internal_deg2; eauto. }
  split.
  - intros Q. assert (Z0 : cnt (fun v => deg v =? 2) - cnt (visited g4) = 0) by (destruct (Z.eqb_spec (cnt (fun v => deg v =? 2) - cnt (visited g4)) 0); auto; discriminate).
    pose proof (proj1 Full Z0) as AV. exists [x0; w1; w2], [y3'; y4'; w5]. split; auto. split; auto.
    destruct (bip_pattern _ _ NDi) as (NE & HE & Hnb).
    apply (sound g0 adj R _ _ (oppo [x0; w1; w2] [y3'; y4'; w5])); auto.
    + intros c Hc. assert (Hc' : In c [x0; x1; x2; x3; x4; x5]) by (apply Pin; exact Hc). split; [|now apply ND2].
      apply Inc in Hc' as [_ Hd]. unfold ObsP3.deg in Hd. unfold oppo. destruct (in_dec _ _ _); cbn [length]; lia.
    + intros v Hv. apply Oth. intros I. apply Hv. apply (Permutation_in _ P). auto.
    + intros u v I. apply in_prod_iff in I as [I1 I2]. destruct (Ex u v I1 I2) as (i & j & I & <- & <-).
      destruct (A eq_refl i j I) as (l & Pl & _). eauto.
    + intros x Hx. destruct (VD x) as (i & j & l & I & Pl & Il); [apply (deg_prim g0 adj PE); apply deg2_deg in Hx; lia|auto|].
      destruct (Ind i j I) as (_ & _ & I1 & _). exists (im imgs i), l, (im imgs j). split; auto. apply in_or_app. auto.
  - intros S. destruct (Sd S) as (_ & L2 & L3). rewrite (proj2 (Z.eqb_eq _ _)); auto. apply Full. intros x Hx.
    destruct (L2 x Hx) as (u & l & v & Hu & Hv & Pl & Il). destruct (Ex u v Hu Hv) as (i & j & I & <- & <-).
    destruct (A eq_refl i j I) as (l' & Pl' & Al'). rewrite (L3 (im imgs i) l' l (im imgs j)) in Al'; auto.
    unfold imgs at 2. cbn [In] in *. tauto.
Qed.

Lemma image_none mD mN n : Z.of_nat n <= mN -> 2 < mD -> forall k cs, length cs = n -> 2 < k <= mD -> NoDup cs -> (forall c, In c cs -> deg c = k) ->
  (forall v, ~ In v cs -> deg v = 0 \/ deg v = 2) ->
  ~ ((exists v, primary g0 v /\ (deg v = 1 \/ deg v > mD)) \/ mN < cnt big).
Proof.
  intros H1 H2 k cs Lc Hk ND A B [(v & _ & H)|H].
  - destruct (in_dec Z.eq_dec v cs) as [I|I]; [rewrite (A v I) in H|destruct (B v I)]; lia.
  - destruct (corner_facts g0 adj R PE cs k ND) as (P & _); auto; [lia|]. unfold ObsP3.cnt in H. rewrite (Permutation_length P) in H. lia.
Qed.

Lemma kuratowski_ok g : vm g ->
  exists g' r, _CheckKuratowskiSubgraphIntegrity g = Ret (g', r) /\ vm g' /\ (r = C_OK \/ r = C_NOTOK) /\
    (r = C_OK <-> complete_subdivision g0 adj 5 \/ bipartite_subdivision g0 adj 3 3).
Proof.
  intros F. unfold _CheckKuratowskiSubgraphIntegrity.
  destruct (images_ok g0 adj R g 4 6 F) as (r & -> & Hr); try lia. cbn [bind]. destruct r as [[ds imgs]|].
  - destruct (complete_test_ok g0 adj R PE g 5 ds imgs F) as (g1 & ds1 & r1 & E1 & F1 & O1 & C1 & D1); [lia|exact Hr|].
    change (Z.of_nat 5) with 5 in E1. rewrite E1. cbn [bind]. destruct O1 as [-> | ->].
    + change (C_TRUE =? C_TRUE) with true. cbv iota. exists g1, C_OK. split; auto. split; auto. split; auto. split; auto. intros _. left. now apply C1.
    + change (C_FALSE =? C_TRUE) with false. cbv iota.
      destruct (k33_test_ok g1 ds imgs F1 Hr) as (g2 & r2 & E2 & F2 & O2 & C2).
      assert (N5 : ~ complete_subdivision g0 adj 5) by (intros S; apply C1 in S; discriminate).
      destruct D1 as [-> | (Ld & D1 & D2)].
      * rewrite E2. cbn [bind]. eexists _, _. split; [reflexivity|]. split; auto. destruct O2 as [-> | ->].
        -- change (C_TRUE =? C_TRUE) with true. cbv iota. split; auto. split; auto. intros _. right. now apply C2.
        -- change (C_FALSE =? C_TRUE) with false. cbv iota. split; auto. split; [discriminate|]. intros [S|S]; [tauto|]. apply C2 in S. discriminate.
      * change (5 - 1)%nat with 4%nat in *. assert (N33 : ~ bipartite_subdivision g0 adj 3 3).
        { intros S. destruct (k33_facts S) as (a & b & La & Lb & ND & D3 & Do & _). destruct (corner_facts g0 adj R PE (a ++ b) 3 ND) as (_ & _ & Q2); auto; [lia|].
          destruct Hr as (_ & _ & Hc & _). specialize (Hc 4 ltac:(lia)). change (Z.to_nat 4) with 4%nat in Hc. rewrite (Q2 4) in Hc by lia. lia. }
        destruct Hr as (_ & Hl & _). unfold _TestForK33GraphObstruction. rewrite a_rd_ok by lia. cbn [bind]. change (Z.to_nat 4) with 4%nat. rewrite D1.
        change (negb (Z.of_nat 5 =? 0)) with true. cbv iota. cbn [bind]. exists g1, C_NOTOK. split; [reflexivity|]. split; auto. split; auto. split; [discriminate|]. tauto.
  - exists g, C_NOTOK. split; auto. split; auto. split; auto. split; [discriminate|]. intros [S|S]; exfalso.
    + destruct (complete_facts g0 adj R 5 ltac:(lia) S) as (cs & Lc & ND & _ & A & B).
      revert Hr. apply (image_none 4 6 5 ltac:(lia) ltac:(lia) (Z.of_nat 5 - 1) cs); auto. lia.
    + destruct (k33_facts S) as (a & b & La & Lb & ND & D3 & Do & _).
      revert Hr. apply (image_none 4 6 6 ltac:(lia) ltac:(lia) 3 (a ++ b)); auto; [rewrite app_length; lia|lia].
Qed.
End Tests.
