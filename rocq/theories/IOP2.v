(** * IOP2: the state while an adjacency list is read. *)
From Coq Require Import ZifyBool Permutation.
From Verif Require Import Base BaseP GraphRec GraphM GraphSpec GSimp LinkP GraphP GraphP2 GraphP3 GraphP4 EmbP IOM.

(** The arcs in D are in a circular list that belongs to vertex v but is not attached to it. *)
Definition circ (g : graph) (D : list Z) : Prop := linked (enext g) (eprev g) (last D NIL) D (hd NIL D).
Definition owned (adj : Z -> list Z) (v : Z) (D : list Z) (w e : Z) : Prop := In e (adj w) \/ (w = v /\ In e D).

Record mid (n C : Z) (g : graph) (adj : Z -> list Z) (v : Z) (D : list Z) : Prop := {
  md_chains : chains g adj;
  md_circ : circ g D;
  md_nodup : NoDup D;
  md_disj : forall w e, In e (adj w) -> ~ In e D;
  md_own : forall w e, owned adj v D w e -> 2 <= e < 2 + 2 * gM g /\ enbr g (twin e) = w;
  md_cover : forall e, 2 <= e < 2 + 2 * gM g -> owned adj v D (enbr g (twin e)) e;
  md_holes : gholes g = [];
  md_N : gN g = n;
  md_M : 0 <= gM g;
  md_fit : 2 * gM g <= gCap g;
  md_even : Z.even (gCap g) = true;
  md_cap : 4 < gCap g <= C;
  md_hcap : gCap g / 2 <= gholesCap g;
  md_stack : gstack g = [];
  md_scap : 0 <= gstackCap g;
  md_flags : forall e, 2 <= e < 2 + gCap g -> eflags g e = 0 }.

Lemma mid_range n C g adj v D w e : mid n C g adj v D -> owned adj v D w e -> 2 <= e < gp_EdgeIndexBound g.
Proof.
  intros M H. pose proof (proj1 (md_own _ _ _ _ _ _ M _ _ H)). pose proof (md_fit _ _ _ _ _ _ M).
  unfold gp_EdgeIndexBound. lia.
Qed.

Lemma twin_bound e m : 2 <= e < 2 + 2 * m -> 2 <= twin e < 2 + 2 * m.
Proof.
  intros H. unfold twin. rewrite lxor_1 by lia.
  destruct (even_cases e) as [[E M]|[E M]]; rewrite E; Z.div_mod_to_equations; lia.
Qed.

Lemma twin2 e : twin (twin e) = e.
Proof. apply twin_twin. Qed.

Lemma mid_rep n C g adj v : mid n C g adj v [] -> 1 <= n -> rep g adj.
Proof.
  intros M Hn. pose proof (md_N _ _ _ _ _ _ M) as EN.
  assert (HB : gp_EdgeInUseIndexBound g = 2 + 2 * gM g).
  { unfold gp_EdgeInUseIndexBound. rewrite (md_holes _ _ _ _ _ _ M). cbn [length]. lia. }
  constructor.
  - apply M.
  - intros w e He. destruct (md_own _ _ _ _ _ _ M w e (or_introl He)) as [H1 H2]. split; [exact H2|].
    pose proof (twin_bound e (gM g) H1) as HT. destruct (md_cover _ _ _ _ _ _ M _ HT) as [H3|[_ []]].
    rewrite twin2 in H3. exact H3.
  - constructor; try apply M; try lia.
    + rewrite HB. unfold gp_EdgeIndexBound. pose proof (md_fit _ _ _ _ _ _ M). lia.
    + intros w e He. rewrite HB. apply (md_own _ _ _ _ _ _ M w e (or_introl He)).
    + rewrite (md_holes _ _ _ _ _ _ M). intros h [].
    + rewrite (md_holes _ _ _ _ _ _ M). constructor.
    + rewrite HB. intros e He. left. destruct (md_cover _ _ _ _ _ _ M _ He) as [H3|[_ []]]. exact H3.
Qed.

(** ** Adding an edge at the front of both lists *)
Lemma circ_frame g g' D : (forall e, In e D -> enext g' e = enext g e /\ eprev g' e = eprev g e) -> circ g D -> circ g' D.
Proof. intros H. apply linked_ext. exact H. Qed.

Record edge_added (g g' : graph) (u w a : Z) : Prop := {
  ea_M : gM g' = gM g + 1;
  ea_a : enbr g' a = w;
  ea_ta : enbr g' (twin a) = u;
  ea_old : forall e, 2 <= e < 2 + 2 * gM g -> enbr g' e = enbr g e;
  ea_VI : gVI g' = gVI g;
  ea_ifl : giflags g' = giflags g;
  ea_vindex : vindex g' = vindex g }.

Lemma odd_twin m : 0 <= m -> twin (2 * m + 2) = 2 * m + 3.
Proof.
  intros H. unfold twin. rewrite lxor_1 by lia. replace (2 * m + 2) with (2 * (m + 1)) by lia.
  rewrite Z.even_mul. cbn [Z.even orb]. lia.
Qed.

Lemma add_mid n C g adj v D u w :
  mid n C g adj v D -> 1 <= u <= n -> 1 <= w <= n -> u <> w -> gM g < gCap g / 2 ->
  exists g', gp_AddEdge g u 0 w 0 = Ret (g', C_OK) /\ let a := 2 * gM g + 3 in
    mid n C g' (upd (upd adj u (a :: adj u)) w (twin a :: adj w)) v D /\ edge_added g g' u w a.
Proof.
  intros M Hu Hw Hne HM. rewrite add_is_body. unfold valid_vertex. rewrite (md_N _ _ _ _ _ _ M).
  replace (negb _) with false by lia. replace (gCap g / 2 <=? gM g) with false by lia.
  unfold insert_body, take_edge_slot. rewrite (md_holes _ _ _ _ _ _ M).
  assert (HB : gp_EdgeInUseIndexBound g = 2 * gM g + 2).
  { unfold gp_EdgeInUseIndexBound. rewrite (md_holes _ _ _ _ _ _ M). cbn [length]. lia. }
  rewrite HB. change (gp_GetTwinArc (2 * gM g + 2)) with (twin (2 * gM g + 2)). rewrite odd_twin by apply (md_M _ _ _ _ _ _ M).
  set (b := 2 * gM g + 2). set (a := 2 * gM g + 3).
  assert (Tab : twin a = b) by (unfold a, b; rewrite <- odd_twin, twin2 by apply (md_M _ _ _ _ _ _ M); reflexivity).
  assert (Tba : twin b = a) by (apply odd_twin, M).
  pose proof (md_M _ _ _ _ _ _ M) as M0. pose proof (md_N _ _ _ _ _ _ M) as EN.
  assert (Hcap : 2 * gM g + 2 <= gCap g).
  { pose proof (md_even _ _ _ _ _ _ M) as Ev. apply Z.even_spec in Ev. destruct Ev as [k Hk]. rewrite Hk in HM.
    rewrite Z.mul_comm, Z.div_mul in HM by lia. lia. }
  assert (Ra : 2 <= a < gp_EdgeIndexBound g) by (unfold a, gp_EdgeIndexBound; lia).
  assert (Rb : 2 <= b < gp_EdgeIndexBound g) by (unfold b, gp_EdgeIndexBound; lia).
  assert (FA : forall x e, In e (adj x) -> e <> a /\ e <> b).
  { intros x e He. pose proof (proj1 (md_own _ _ _ _ _ _ M x e (or_introl He))). unfold a, b. lia. }
  assert (FD : forall e, In e D -> e <> a /\ e <> b).
  { intros e He. pose proof (proj1 (md_own _ _ _ _ _ _ M v e (or_intror (conj eq_refl He)))). unfold a, b. lia. }
  assert (Hu' : is_vertex g u) by (unfold is_vertex; lia). assert (Hw' : is_vertex g w) by (unfold is_vertex; lia).
  rewrite set_nbr by (apply inE_true; lia). rewrite bind_ret.
  set (g1 := set_enbr g (upd (enbr g) a w)).
  assert (C1 : chains g1 adj) by (eapply chains_congr; [..|apply (md_chains _ _ _ _ _ _ M)]; reflexivity).
  destruct (wp_inv _ _ (attach_nil_ok g1 adj u 0 a C1 Hu' (or_introl eq_refl) (fun x H => proj1 (FA x a H) eq_refl) Ra)) as (g2 & E2 & I2).
  rewrite Z.eqb_refl in I2. rewrite E2, bind_ret.
  pose proof (chains_insert g1 g2 adj u [] (adj u) a C1 Hu' eq_refl (fun x H => proj1 (FA x a H) eq_refl) Ra I2) as C2.
  cbn [app] in C2. set (adj2 := upd adj u (a :: adj u)) in *.
  pose proof (ie_frame _ _ _ _ _ _ I2) as F2.
  rewrite set_nbr by (apply inE_true; unfold gp_EdgeIndexBound; rewrite (fl_cap _ _ F2); unfold gp_EdgeIndexBound in Rb; cbn; lia).
  rewrite bind_ret. set (g3 := set_enbr g2 (upd (enbr g2) b u)).
  assert (C3 : chains g3 adj2) by (eapply chains_congr; [..|exact C2]; reflexivity).
  assert (Hw3 : is_vertex g3 w) by (unfold is_vertex; cbn; rewrite (fl_N _ _ F2); exact Hw').
  assert (Nb3 : forall x, ~ In b (adj2 x)).
  { intros x. unfold adj2, upd. destruct (Z.eqb_spec x u) as [->|_]; [|intros H; apply FA in H; tauto].
    intros [H|H]; [unfold a, b in H; lia|apply FA in H; tauto]. }
  assert (Rb3 : 2 <= b < gp_EdgeIndexBound g3).
  { unfold gp_EdgeIndexBound; cbn; rewrite (fl_cap _ _ F2); exact Rb. }
  destruct (wp_inv _ _ (attach_nil_ok g3 adj2 w 0 b C3 Hw3 (or_introl eq_refl) Nb3 Rb3)) as (g4 & E4 & I4).
  rewrite Z.eqb_refl in I4. rewrite E4, bind_ret.
  pose proof (chains_insert g3 g4 adj2 w [] (adj2 w) b C3 Hw3 eq_refl Nb3 Rb3 I4) as C4.
  cbn [app] in C4. assert (Aw : adj2 w = adj w) by (unfold adj2; apply upd_other; congruence). rewrite Aw in C4.
  pose proof (ie_frame _ _ _ _ _ _ I4) as F4.
  set (g5 := set_gM g4 (gM g4 + 1)). exists g5. split; [reflexivity|]. cbv zeta.
  assert (EM : gM g5 = gM g + 1) by (cbn; rewrite (fl_M _ _ F4); cbn; rewrite (fl_M _ _ F2); reflexivity).
  assert (EC : gCap g5 = gCap g) by (cbn; rewrite (fl_cap _ _ F4); cbn; rewrite (fl_cap _ _ F2); reflexivity).
  assert (EB : forall x, enbr g5 x = if x =? b then u else if x =? a then w else enbr g x).
  { intros x. cbn. rewrite (fl_enbr _ _ F4). cbn. unfold upd. destruct (x =? b); [reflexivity|].
    rewrite (fl_enbr _ _ F2). cbn. unfold upd. reflexivity. }
  assert (OW : forall x e, owned (upd adj2 w (b :: adj w)) v D x e <->
            owned adj v D x e \/ (x = u /\ e = a) \/ (x = w /\ e = b)).
  { intros x e. unfold owned, adj2, upd. destruct (Z.eqb_spec x w) as [->|Nw].
    - cbn [In]. split; [intros [[H|H]|H]; auto|]. intros [[H|H]|[[H1 H2]|[H1 H2]]]; auto; try congruence; left; left; congruence.
    - destruct (Z.eqb_spec x u) as [->|Nu].
      + cbn [In]. split; [intros [[H|H]|H]; auto|]. intros [[H|H]|[[H1 H2]|[H1 H2]]]; auto; try congruence; left; left; congruence.
      + split; [tauto|]. intros [H|[[H1 H2]|[H1 H2]]]; auto; congruence. }
  assert (Tn : forall e, e <> a -> e <> b -> twin e <> a /\ twin e <> b).
  { intros e H1 H2. split; intros H; apply (f_equal twin) in H; rewrite twin2 in H; congruence. }
  rewrite Tab. split.
  - constructor.
    + eapply chains_congr; [..|exact C4]; reflexivity.
    + apply (circ_frame g); [|apply M]. intros e He. pose proof (FD e He) as [N1 N2].
      assert (Nu : hd NIL (adj u) <> e).
      { destruct (adj u) as [|x l] eqn:Eu; cbn [hd].
        - intros <-. pose proof (proj1 (md_own _ _ _ _ _ _ M v NIL (or_intror (conj eq_refl He)))). unfold NIL in *; lia.
        - intros ->. eapply (md_disj _ _ _ _ _ _ M u e); [rewrite Eu; left; reflexivity|exact He]. }
      assert (Nw : hd NIL (adj w) <> e).
      { destruct (adj w) as [|x l] eqn:Eu; cbn [hd].
        - intros <-. pose proof (proj1 (md_own _ _ _ _ _ _ M v NIL (or_intror (conj eq_refl He)))). unfold NIL in *; lia.
        - intros ->. eapply (md_disj _ _ _ _ _ _ M w e); [rewrite Eu; left; reflexivity|exact He]. }
      cbn. rewrite (ie_next _ _ _ _ _ _ I4), (ie_prev _ _ _ _ _ _ I4), Aw. cbn [isnil negb andb].
      replace (e =? b) with false by lia. replace (e =? hd NIL (adj w)) with false by lia. rewrite andb_false_r. cbn.
      rewrite (ie_next _ _ _ _ _ _ I2), (ie_prev _ _ _ _ _ _ I2). cbn [isnil negb andb].
      replace (e =? a) with false by lia. replace (e =? hd NIL (adj u)) with false by lia. rewrite andb_false_r. cbn. auto.
    + apply M.
    + intros x e H He. pose proof (FD e He) as [N1 N2].
      assert (O : owned (upd adj2 w (b :: adj w)) v D x e) by (left; exact H).
      revert H. unfold adj2, upd. destruct (Z.eqb_spec x w) as [->|Nw].
      * intros [H|H]; [congruence|eapply (md_disj _ _ _ _ _ _ M); eauto].
      * destruct (Z.eqb_spec x u) as [->|Nu].
        -- intros [H|H]; [congruence|eapply (md_disj _ _ _ _ _ _ M); eauto].
        -- intros H. eapply (md_disj _ _ _ _ _ _ M); eauto.
    + intros x e H. apply OW in H. rewrite EM, EB. destruct H as [H|[[-> ->]|[-> ->]]].
      * destruct (md_own _ _ _ _ _ _ M _ _ H) as [H1 H2]. destruct (Tn e) as [T1 T2]; [unfold a; lia|unfold b; lia|].
        replace (twin e =? b) with false by lia. replace (twin e =? a) with false by lia. split; [lia|exact H2].
      * rewrite Tab, Z.eqb_refl. unfold a. split; [lia|reflexivity].
      * rewrite Tba, Z.eqb_refl. replace (a =? b) with false by (unfold a, b; lia). unfold b. split; [lia|reflexivity].
    + intros e H. rewrite EM in H. apply OW. rewrite EB. destruct (Z.eq_dec e a) as [->|Na].
      { right. left. rewrite Tab, Z.eqb_refl. auto. }
      destruct (Z.eq_dec e b) as [->|Nb].
      { right. right. rewrite Tba, Z.eqb_refl. replace (a =? b) with false by (unfold a, b; lia). auto. }
      left. destruct (Tn e Na Nb) as [T1 T2]. replace (twin e =? b) with false by lia. replace (twin e =? a) with false by lia.
      apply M. unfold a, b in *. lia.
    + cbn. rewrite (fl_holes _ _ F4). cbn. rewrite (fl_holes _ _ F2). apply M.
    + cbn. rewrite (fl_N _ _ F4). cbn. rewrite (fl_N _ _ F2). apply M.
    + lia.
    + lia.
    + rewrite EC. apply M.
    + rewrite EC. apply M.
    + rewrite EC. cbn. rewrite (fl_holesCap _ _ F4). cbn. rewrite (fl_holesCap _ _ F2). apply M.
    + cbn. rewrite (fl_stack _ _ F4). cbn. rewrite (fl_stack _ _ F2). apply M.
    + cbn. rewrite (fl_stackCap _ _ F4). cbn. rewrite (fl_stackCap _ _ F2). apply M.
    + rewrite EC. cbn. rewrite (fl_eflags _ _ F4). cbn. rewrite (fl_eflags _ _ F2). apply M.
  - constructor; auto.
    + rewrite EB, Z.eqb_refl. replace (a =? b) with false by (unfold a, b; lia). reflexivity.
    + rewrite EB, Tab, Z.eqb_refl. reflexivity.
    + intros e He. rewrite EB. replace (e =? b) with false by (unfold b; lia). replace (e =? a) with false by (unfold a; lia). reflexivity.
    + cbn. rewrite (fl_VI _ _ F4). cbn. rewrite (fl_VI _ _ F2). reflexivity.
    + cbn. rewrite (fl_iflags _ _ F4). cbn. rewrite (fl_iflags _ _ F2). reflexivity.
    + cbn. rewrite (fl_vindex _ _ F4). cbn. rewrite (fl_vindex _ _ F2). reflexivity.
Qed.
