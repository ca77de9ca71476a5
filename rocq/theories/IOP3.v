(** * IOP3: growing, detaching a list and pulling arcs out of it. *)
From Coq Require Import ZifyBool Permutation.
From Verif Require Import Base BaseP GraphRec GraphM GraphSpec GSimp LinkP GraphP GraphP2 GraphP3 GraphP4 GraphP5 EmbP IOP2 IOM.

Lemma mid_grown n C g g' adj v D req :
  mid n C g adj v D -> grown g g' req -> gCap g <= req -> Z.even req = true -> req <= C -> mid n C g' adj v D.
Proof.
  intros M G Hlt Hev HC. pose proof (md_fit _ _ _ _ _ _ M) as Hf. pose proof (md_cap _ _ _ _ _ _ M) as Hc.
  assert (Old : forall x, x < 2 + gCap g -> (2 + gCap g <=? x) && (x <? 2 + req) = false) by (intros; lia).
  assert (Rg : forall w e, owned adj v D w e -> e < 2 + gCap g).
  { intros w e H. pose proof (proj1 (md_own _ _ _ _ _ _ M _ _ H)). lia. }
  assert (Nb : forall e, 2 <= e < 2 + 2 * gM g -> enbr g' (twin e) = enbr g (twin e)).
  { intros e He. rewrite (gr_enbr _ _ _ G), Old; [reflexivity|]. pose proof (twin_bound _ _ He). lia. }
  constructor.
  - eapply chains_agree; [apply M|apply G|unfold gp_EdgeIndexBound; rewrite (gr_cap _ _ _ G); lia|..].
    + intros w _. rewrite (gr_vfirst _ _ _ G), (gr_vlast _ _ _ G). auto.
    + intros w e He. rewrite (gr_enext _ _ _ G), (gr_eprev _ _ _ G), Old; auto. eapply Rg; left; eauto.
  - apply (circ_frame g); [|apply M]. intros e He. rewrite (gr_enext _ _ _ G), (gr_eprev _ _ _ G), Old; auto.
    eapply Rg; right; eauto.
  - apply M.
  - apply M.
  - intros w e H. rewrite (gr_M _ _ _ G). destruct (md_own _ _ _ _ _ _ M _ _ H) as [H1 H2]. rewrite Nb; auto.
  - rewrite (gr_M _ _ _ G). intros e He. rewrite Nb by auto. apply M; auto.
  - rewrite (gr_holes _ _ _ G). apply M.
  - rewrite (gr_N _ _ _ G). apply M.
  - rewrite (gr_M _ _ _ G). apply M.
  - rewrite (gr_M _ _ _ G), (gr_cap _ _ _ G). lia.
  - rewrite (gr_cap _ _ _ G). auto.
  - rewrite (gr_cap _ _ _ G). lia.
  - rewrite (gr_cap _ _ _ G). apply G.
  - rewrite (gr_stack _ _ _ G). apply M.
  - pose proof (gr_stackCap _ _ _ G). pose proof (md_scap _ _ _ _ _ _ M). lia.
  - rewrite (gr_cap _ _ _ G). intros e He. rewrite (gr_eflags _ _ _ G).
    destruct ((2 + gCap g <=? e) && (e <? 2 + req)) eqn:E; [reflexivity|]. apply M. lia.
Qed.

Lemma dyn_mid n C g adj v D u w :
  mid n C g adj v D -> n * (n - 1) <= C -> 2 * C <= INT_MAX ->
  1 <= u <= n -> 1 <= w <= n -> u <> w -> 2 * gM g < n * (n - 1) ->
  exists g', gp_DynamicAddEdge g u 0 w 0 = Ret (g', C_OK) /\ let a := 2 * gM g + 3 in
    mid n C g' (upd (upd adj u (a :: adj u)) w (twin a :: adj w)) v D /\ edge_added g g' u w a.
Proof.
  intros M HnC HCI Hu Hw Hne HM. pose proof (md_N _ _ _ _ _ _ M) as EN.
  unfold gp_DynamicAddEdge. rewrite EN. replace (_ || _) with false by lia.
  destruct (Z_lt_le_dec (gM g) (gCap g / 2)) as [Lt|Le].
  - destruct (add_mid n C g adj v D u w M Hu Hw Hne Lt) as (g' & E & K). rewrite E, bind_ret.
    cbn [C_OK C_NONEMBEDDABLE Z.eqb]. exists g'. auto.
  - rewrite add_is_body. unfold valid_vertex. rewrite EN. replace (negb _) with false by lia.
    replace (gCap g / 2 <=? gM g) with true by lia. rewrite bind_ret. cbn [C_NONEMBEDDABLE Z.eqb Pos.eqb].
    change (gp_GetArcCapacity g) with (gCap g - 2). pose proof (md_cap _ _ _ _ _ _ M) as Hcap.
    pose proof (md_even _ _ _ _ _ _ M) as Hev. pose proof (md_fit _ _ _ _ _ _ M) as Hfit.
    rewrite EN. rewrite guard_true by (unfold int_ok, INT_MAX in *; nia).
    set (c := if _ >? _ then _ else _).
    assert (HcE : gCap g = 2 * gM g).
    { apply Z.even_spec in Hev. destruct Hev as [k Hk]. rewrite Hk in Le. rewrite Z.mul_comm, Z.div_mul in Le by lia. lia. }
    assert (Hc : gCap g < c <= C /\ Z.even c = true).
    { unfold c. destruct (Z.gtb_spec ((gCap g - 2) * 2) (n * (n - 1))) as [H|H].
      - split; [lia|]. rewrite Z.even_mul, Z.even_sub. destruct (Z.even n); reflexivity.
      - split; [lia|]. rewrite Z.even_mul. rewrite orb_true_r. reflexivity. }
    cbv zeta. unfold gp_EnsureArcCapacity. rewrite even_land. replace (c <=? 0) with false by lia.
    rewrite (proj2 Hc). cbn [negb]. replace (gCap g >=? c) with false by lia. rewrite EN. replace (n =? 0) with false by lia.
    assert (B1 : gM g + Z.of_nat (length (gholes g)) <= gCap g / 2).
    { rewrite (md_holes _ _ _ _ _ _ M). cbn [length]. rewrite HcE. rewrite (Z.mul_comm 2), Z.div_mul by lia. lia. }
    assert (B2 : Z.of_nat (length (gstack g)) <= gstackCap g) by (rewrite (md_stack _ _ _ _ _ _ M); apply M).
    destruct (wp_inv _ _ (ensure_grows_bounds g c (md_M _ _ _ _ _ _ M) B1 B2 (proj1 (proj1 Hc)))) as ([g1 r1] & E1 & P1 & G1).
    cbn [fst snd] in *. subst r1.
    rewrite E1, bind_ret. cbn [C_OK Z.eqb negb Pos.eqb].
    assert (M1 : mid n C g1 adj v D) by (eapply mid_grown; [exact M|exact G1|lia|tauto|lia]).
    destruct (add_mid n C g1 adj v D u w M1 Hu Hw Hne) as (g' & E & K).
    { rewrite (gr_M _ _ _ G1), (gr_cap _ _ _ G1). destruct Hc as [Hc1 Hc2]. apply Z.even_spec in Hc2. destruct Hc2 as [k Hk].
      rewrite Hk. rewrite (Z.mul_comm 2), Z.div_mul by lia. lia. }
    exists g'. split; [exact E|]. cbv zeta in *. rewrite (gr_M _ _ _ G1) in K. destruct K as [K1 K2]. split; [exact K1|].
    destruct K2 as [Q1 Q2 Q3 Q4 Q5 Q6 Q7]. constructor; auto.
    + rewrite Q1, (gr_M _ _ _ G1). reflexivity.
    + intros e He. rewrite Q4 by (rewrite (gr_M _ _ _ G1); auto). rewrite (gr_enbr _ _ _ G1).
      replace (2 + gCap g <=? e) with false by lia. reflexivity.
    + rewrite Q5. apply G1.
    + rewrite Q6. apply G1.
    + rewrite Q7. apply G1.
Qed.

(** ** Detaching the list of a vertex *)
Definition same_but_links_vi (g g' : graph) : Prop :=
  gN g' = gN g /\ gM g' = gM g /\ gCap g' = gCap g /\ enbr g' = enbr g /\ eflags g' = eflags g /\
  gholes g' = gholes g /\ gholesCap g' = gholesCap g /\ gstack g' = gstack g /\ gstackCap g' = gstackCap g /\
  giflags g' = giflags g /\ vindex g' = vindex g.

Lemma set_visited_id g : g = set_gVI g (set_viVisited (gVI g) (viVisited (gVI g))).
Proof.
  destruct g as [a1 a2 a3 a4 a5 a6 a7 a8 a9 a10 a11 a12 a13 a14 a15 a16 a17 vi a18].
  destruct vi; reflexivity.
Qed.

Lemma mark_arcs_ok l : forall f g, (length l < f)%nat -> walks (enext g) l ->
  (forall e, In e l -> 2 <= e < gp_EdgeIndexBound g /\ 1 <= enbr g e <= gN g) -> NoDup (map (enbr g) l) ->
  exists g', mark_arcs f g (hd NIL l) = Ret g' /\
    (exists vi, g' = set_gVI g (set_viVisited (gVI g) vi)) /\
    (forall e, In e l -> viVisited (gVI g') (enbr g e) = e) /\
    (forall x, ~ In x (map (enbr g) l) -> viVisited (gVI g') x = viVisited (gVI g) x).
Proof.
  induction l as [|e l IH]; intros f g Hf HW HR HN; (destruct f as [|f]; [cbn [length] in Hf; lia|]); cbn [mark_arcs hd].
  - rewrite Z.eqb_refl. exists g. split; [reflexivity|]. split; [|split; auto; intros e []].
    exists (viVisited (gVI g)). apply set_visited_id.
  - destruct (HR e (or_introl eq_refl)) as [R1 R2]. replace (e =? NIL) with false by (unfold NIL; lia).
    rewrite get_nbr by (apply inE_true; lia). rewrite bind_ret. unfold gp_SetVertexVisitedInfo.
    rewrite guard_true by (unfold inVI, gp_PrimaryVertexIndexBound; lia). rewrite bind_ret.
    destruct HW as [W1 W2]. rewrite get_next by (apply inE_true; unfold gp_EdgeIndexBound in *; cbn; lia).
    rewrite bind_ret. set (g1 := set_gVI g _). change (enext g1 e) with (enext g e). rewrite W1.
    cbn [map] in HN. inversion HN as [|x y N1 N2]; subst x y.
    destruct (IH f g1) as (g' & E & (vi & Vi) & V1 & V2); auto; [cbn [length] in Hf; lia|intros x Hx; apply HR; right; exact Hx|].
    exists g'. split; [exact E|]. split; [exists vi; rewrite Vi; reflexivity|]. split.
    + intros x [<-|Hx]; [|apply V1; exact Hx]. rewrite V2 by exact N1. cbn. apply upd_same.
    + intros x Hx. cbn [map In] in Hx. rewrite V2 by (intros H; apply Hx; right; exact H). cbn. apply upd_other. intros ->. tauto.
Qed.

Lemma last_in {A} (l : list A) d : l <> [] -> In (last l d) l.
Proof.
  intros H. destruct (list_snoc l) as [->|(l' & x & ->)]; [congruence|]. rewrite last_snoc, in_app_iff. right. left. reflexivity.
Qed.

(** Making a proper list circular. *)
Lemma close_list nx pv l a b : linked nx pv NIL l NIL -> NoDup l -> l <> [] -> a = hd NIL l -> b = last l NIL ->
  linked (upd nx b a) (upd pv a b) b l a.
Proof.
  intros H ND NE Ea Eb. apply linked_char. intros l1 e l2 E. rewrite linked_char in H. destruct (H _ _ _ E) as [H1 H2].
  split.
  - unfold upd. destruct l1 as [|x l1].
    + cbn [last]. rewrite Ea, E. cbn [app hd]. rewrite Z.eqb_refl. reflexivity.
    + destruct (Z.eqb_spec e a) as [->|N].
      * exfalso. assert (Ex : a = x) by (rewrite Ea, E; reflexivity). subst x. rewrite E in ND. cbn [app] in ND.
        inversion ND as [|y z N1 N2]; subst y z. apply N1. rewrite in_app_iff. right. left. reflexivity.
      * rewrite H1. clear. revert x. induction l1 as [|y l1 IH]; intros x; [reflexivity|]. exact (IH y).
  - unfold upd. destruct l2 as [|x l2].
    + cbn [hd]. rewrite Eb, E, last_snoc, Z.eqb_refl. reflexivity.
    + destruct (Z.eqb_spec e b) as [->|N]; [|exact H2].
      exfalso. rewrite E in ND. apply NoDup_remove_2 in ND. apply ND. rewrite in_app_iff. right.
      assert (Eb' : b = last (x :: l2) NIL).
      { rewrite Eb, E. clear. induction l1 as [|y l1 IH]; [reflexivity|].
        change ((y :: l1) ++ b :: x :: l2) with (y :: (l1 ++ b :: x :: l2)). destruct (l1 ++ b :: x :: l2) eqn:Q; [destruct l1; discriminate|].
        cbn [last]. cbn [last] in IH. exact IH. }
      rewrite Eb'. apply last_in. discriminate.
Qed.

Lemma take_list_ok n C g adj v :
  mid n C g adj v [] -> 1 <= v <= n -> (forall e, In e (adj v) -> 1 <= enbr g e <= n) -> NoDup (map (enbr g) (adj v)) ->
  exists g', take_list g v = Ret (g', hd NIL (adj v)) /\
    mid n C g' (upd adj v []) v (adj v) /\ enbr g' = enbr g /\ gM g' = gM g /\ giflags g' = giflags g /\
    (forall e, In e (adj v) -> viVisited (gVI g') (enbr g e) = e) /\
    (forall x, ~ In x (map (enbr g) (adj v)) -> viVisited (gVI g') x = viVisited (gVI g) x).
Proof.
  intros M Hv HP HN. pose proof (md_N _ _ _ _ _ _ M) as EN. pose proof (md_chains _ _ _ _ _ _ M) as Ch.
  assert (Vv : is_vertex g v) by (unfold is_vertex; lia).
  unfold take_list. rewrite get_first by (apply inV_true; auto). rewrite bind_ret, (ch_first _ _ Ch) by auto.
  destruct (adj v) as [|a l] eqn:Ev.
  - cbn [hd]. rewrite Z.eqb_refl. exists g. split; [reflexivity|]. split; [|repeat split; auto; intros e []].
    assert (EA : forall w, upd adj v [] w = adj w) by (intros w; unfold upd; destruct (Z.eqb_spec w v) as [->|]; auto).
    assert (OW : forall w e, owned (upd adj v []) v [] w e <-> owned adj v [] w e) by (intros; unfold owned; rewrite EA; tauto).
    constructor; try apply M.
    + eapply chains_ext; [exact Ch|exact EA].
    + intros w e _ [].
    + intros w e H. apply (md_own _ _ _ _ _ _ M). apply OW. exact H.
    + intros e H. apply OW. apply M. exact H.
  - cbn [hd].
    assert (RA : forall e, In e (adj v) -> 2 <= e < gp_EdgeIndexBound g) by (intros e He; eapply ch_range; eauto).
    rewrite Ev in RA. pose proof (RA a (or_introl eq_refl)) as Ra. replace (a =? NIL) with false by (unfold NIL; lia).
    destruct (mark_arcs_ok (adj v) (efuel g) g) as (g1 & E1 & (vi & G1) & V1 & V2).
    { exact (adj_len _ _ v Ch). }
    { apply chains_walks with (1 := Ch). }
    { rewrite Ev. intros e He. split; [apply RA; exact He|rewrite EN; apply HP; exact He]. }
    { rewrite Ev. exact HN. }
    rewrite Ev in E1. cbn [hd] in E1. rewrite E1, bind_ret.
    assert (K : inV g1 v = true) by (subst g1; apply inV_true; exact Vv).
    rewrite get_last by exact K. rewrite bind_ret.
    assert (EL : vlast g1 v = last (a :: l) NIL) by (subst g1; cbn; rewrite (ch_last _ _ Ch) by auto; rewrite Ev; reflexivity).
    rewrite EL. set (z := last (a :: l) NIL).
    assert (Iz : In z (a :: l)) by (apply last_in; discriminate).
    pose proof (RA z Iz) as Rz.
    rewrite set_prev by (subst g1; exact (inE_true g a ltac:(lia))). rewrite bind_ret.
    rewrite get_last by (subst g1; exact K). rewrite bind_ret. cbn [vlast set_eprev].
    rewrite EL. fold z. rewrite set_next by (subst g1; exact (inE_true g z ltac:(lia))). rewrite bind_ret.
    rewrite set_first by (subst g1; exact K). rewrite bind_ret. rewrite set_last by (subst g1; exact K). rewrite bind_ret.
    eexists. split; [reflexivity|].
    subst g1. split; [|repeat split; auto; rewrite Ev in *; [exact V1|exact V2]].
    assert (LK : linked (enext g) (eprev g) NIL (a :: l) NIL) by (rewrite <- Ev; apply Ch; exact Vv).
    assert (ND : NoDup (a :: l)) by (rewrite <- Ev; apply Ch).
    constructor; gsimp; try apply M.
    + constructor; gsimp.
      * intros w Hw. unfold upd. destruct (Z.eqb_spec w v); [reflexivity|apply Ch; exact Hw].
      * intros w Hw. unfold upd. destruct (Z.eqb_spec w v); [reflexivity|apply Ch; exact Hw].
      * intros w Hw. destruct (Z.eq_dec w v) as [->|N]; [rewrite upd_same; exact Logic.I|]. rewrite upd_other by auto.
        eapply linked_ext; [|apply (ch_linked _ _ Ch w Hw)]. intros e He.
        assert (NI : ~ In e (a :: l)) by (rewrite <- Ev; intros H; apply N; eapply ch_disj; eauto).
        split; apply upd_other; intros ->; apply NI; auto. left; reflexivity.
      * intros w Hw. unfold upd. destruct (Z.eqb_spec w v); [reflexivity|apply Ch; exact Hw].
      * intros w. unfold upd. destruct (Z.eqb_spec w v); [constructor|apply Ch].
      * intros x y e. unfold upd. destruct (Z.eqb_spec x v), (Z.eqb_spec y v); cbn [In]; try tauto. apply Ch.
      * intros w e. unfold upd. destruct (Z.eqb_spec w v); [intros []|]. intros He. exact (ch_range _ _ Ch _ _ He).
    + unfold circ. gsimp. fold z. cbn [hd]. apply close_list; auto. discriminate.
    + exact ND.
    + intros w e. unfold upd. destruct (Z.eqb_spec w v); [intros []|]. intros He H. rewrite <- Ev in H. apply n0. eapply ch_disj; eauto.
    + intros w e H. apply (md_own _ _ _ _ _ _ M). unfold owned, upd in H. destruct H as [H|[-> H]].
      * destruct (Z.eqb_spec w v); [destruct H|left; exact H].
      * left. rewrite Ev. exact H.
    + intros e H. destruct (md_cover _ _ _ _ _ _ M e H) as [H1|[_ []]]. unfold owned, upd.
      destruct (Z.eqb_spec (enbr g (twin e)) v) as [E|N]; [right; split; [exact E|]|left; exact H1]. rewrite <- Ev, <- E. exact H1.
Qed.
