(** * IsoO2: the isolator clears flags, orients the component of the obstruction and clears it again. *)
From Coq Require Import ZifyBool Permutation Sorted.
From Verif Require Import Base BaseP GraphRec GraphM GraphSpec GSimp LinkP GraphP GraphP2 GraphP3 ListM ListSpec ListP DFSM DFSSpec DFSP TestM TestSpec TestP TestP2 TestP3 EmbM EmbSpec EmbP EmbP2 EmbP3 FaceP GeoP GeoP2 EmbInv EmbStep EmbTree EmbOrient EmbWalk EmbJoin EmbDown EmbStor IsoM IsoP1 IsoO.

Lemma ldiff_self f m : Z.land (Z.ldiff f m) m = 0.
Proof. apply Z.bits_inj'. intros k Hk. rewrite Z.land_spec, Z.ldiff_spec, Z.bits_0. destruct (Z.testbit f k), (Z.testbit m k); reflexivity. Qed.
Lemma ldiff_other f m k : Z.land m k = 0 -> Z.land (Z.ldiff f m) k = Z.land f k.
Proof.
  intros H. apply Z.bits_inj'. intros i Hi. rewrite !Z.land_spec, Z.ldiff_spec. assert (Q : Z.testbit (Z.land m k) i = false) by (rewrite H; apply Z.bits_0).
  rewrite Z.land_spec in Q. destruct (Z.testbit f i), (Z.testbit m i), (Z.testbit k i); try reflexivity; discriminate.
Qed.

Section O2.
Variables (g0 : graph) (kids : Z -> list Z).
Hypothesis St : static g0 kids.
Local Notation N := (gN g0).
Local Notation p := (viParent (gVI g0)).
Local Notation prim := (prim (gN g0)).
Local Notation isroot := (isroot (gN g0)).
Local Notation geo := (geo (gN g0) (viParent (gVI g0))).
Local Notation vsof := (vsof (gN g0)).
Local Notation mem := (mem (gN g0)).
Local Notation rpv := (rpv g0).
Local Notation marked := (marked g0).

Definition vis0 (g : graph) : Prop := forall x, 1 <= x <= 2 * N -> Z.land (vflags g x) VERTEX_VISITED_MASK = 0.
Definition vtype (g : graph) (x : Z) : Z := Z.land (vflags g x) VERTEX_OBSTRUCTIONTYPE_MASK.

Lemma rpv_stack g a stk t : rpv g a stk -> rpv (set_gstack g t) a t.
Proof. intros H. exact (rp_stack _ _ _ _ t H). Qed.
Lemma rpv_eflags g a stk F : rpv g a stk -> rpv (set_eflags g F) (setfl a F) stk.
Proof. intros H. unfold IsoP1.rpv in *. gsimp. rpz H. Qed.
Lemma push1_ok g a stk x : rpv g a stk -> Z.of_nat (length stk) < gstackCap g0 -> exists g', stk_push g x = Ret g' /\ rpv g' a (x :: stk) /\ vflags g' = vflags g.
Proof.
  intros H L. unfold stk_push. rewrite guard_true by (rewrite (rpv_stackcap g0 _ _ _ H), (r_stack _ _ _ _ H); lia). eexists. split; [reflexivity|].
  rewrite (r_stack _ _ _ _ H). split; [|reflexivity]. now apply (rpv_stack g a stk).
Qed.
Lemma pop1_ok g a stk x : rpv g a (x :: stk) -> exists g', stk_pop g = Ret (g', x) /\ rpv g' a stk /\ vflags g' = vflags g.
Proof. intros H. unfold stk_pop. rewrite (r_stack _ _ _ _ H). eexists. split; [reflexivity|]. split; [now apply (rpv_stack g a (x :: stk))|reflexivity]. Qed.

(** ** _ClearVisitedFlags *)
Lemma clear_ok g a stk : rp g0 g a stk -> gp_EdgeInUseIndexBound g0 <= gp_EdgeIndexBound g0 -> 1 <= N ->
  exists g' F, _ClearVisitedFlags g = Ret g' /\ rpv g' (setfl a F) stk /\ marked (fl (eV a)) F [] /\ vis0 g' /\
    (forall e, Z.land (F e) EDGEFLAG_INVERTED_MASK = Z.land (fl (eV a) e) EDGEFLAG_INVERTED_MASK).
Proof.
  intros H HC HN. apply rpv_of in H. unfold _ClearVisitedFlags, _ClearVertexVisitedFlags.
  assert (V1 : wp (for_up (Z.to_nat (gN g)) 1 (fun v g => gp_ClearVertexVisited g v) g)
     (fun h => rpv h a stk /\ forall x, 1 <= x < 1 + Z.of_nat (Z.to_nat (gN g)) -> Z.land (vflags h x) VERTEX_VISITED_MASK = 0)).
  { apply (for_up_inv (fun k h => rpv h a stk /\ forall x, 1 <= x < k -> Z.land (vflags h x) VERTEX_VISITED_MASK = 0)).
    - split; [auto|]. intros; lia.
    - intros k h Hk (Hh & Hf). pose proof (rpv_N g0 _ _ _ H) as KN. unfold gp_ClearVertexVisited. rewrite (rd_vflags_rpv g0 _ _ _ k Hh) by lia. cbn [bind].
      destruct (rpv_wr_vflags g0 _ _ _ k (Z.ldiff (vflags h k) VERTEX_VISITED_MASK) Hh ltac:(lia)) as (h' & E & H' & V). rewrite E. cbn [wp]. split; [auto|].
      intros x Hx. rewrite V. unfold upd. destruct (Z.eqb_spec x k) as [->|]; [apply land1_ldiff|]. apply Hf. lia. }
  apply wp_inv in V1. destruct V1 as (g1 & -> & H1 & V1). cbn [bind]. pose proof (rpv_N g0 _ _ _ H) as KN. pose proof (rpv_N g0 _ _ _ H1) as KN1.
  assert (V2 : wp (for_up (Z.to_nat (gN g1)) (gN g1 + 1) (fun v g => gp_ClearVertexVisited g v) g1)
     (fun h => rpv h a stk /\ forall x, 1 <= x < gN g1 + 1 + Z.of_nat (Z.to_nat (gN g1)) -> Z.land (vflags h x) VERTEX_VISITED_MASK = 0)).
  { apply (for_up_inv (fun k h => rpv h a stk /\ forall x, 1 <= x < k -> Z.land (vflags h x) VERTEX_VISITED_MASK = 0)).
    - split; [auto|]. intros; apply V1; lia.
    - intros k h Hk (Hh & Hf). unfold gp_ClearVertexVisited. rewrite (rd_vflags_rpv g0 _ _ _ k Hh) by lia. cbn [bind].
      destruct (rpv_wr_vflags g0 _ _ _ k (Z.ldiff (vflags h k) VERTEX_VISITED_MASK) Hh ltac:(lia)) as (h' & E & H' & V). rewrite E. cbn [wp]. split; [auto|].
      intros x Hx. rewrite V. unfold upd. destruct (Z.eqb_spec x k) as [->|]; [apply land1_ldiff|]. apply Hf. lia. }
  apply wp_inv in V2. destruct V2 as (g2 & -> & H2 & V2). cbn [bind]. unfold _ClearEdgeVisitedFlags. rewrite (rpv_inuse g0 _ _ _ H2).
  set (I := fun k h => exists F, rpv h (setfl a F) stk /\ vflags h = vflags g2 /\ (forall e, 2 <= e < k -> Z.land (F e) EDGE_VISITED_MASK = 0) /\
     (forall e, Z.land (F e) EDGE_TYPE_MASK = Z.land (fl (eV a) e) EDGE_TYPE_MASK) /\ forall e, Z.land (F e) EDGEFLAG_INVERTED_MASK = Z.land (fl (eV a) e) EDGEFLAG_INVERTED_MASK).
  assert (V3 : wp (for_up (Z.to_nat (gp_EdgeInUseIndexBound g0 - 2)) 2 (fun e g => gp_ClearEdgeVisited g e) g2) (I (2 + Z.of_nat (Z.to_nat (gp_EdgeInUseIndexBound g0 - 2))))).
  { apply (for_up_inv I).
    - exists (fl (eV a)). split; [destruct a as [[] ? ? ? ? ?]; exact H2|]. split; [auto|]. split; [intros; lia|auto].
    - intros k h Hk (F & Hh & E1 & E2 & E3 & E4). unfold gp_ClearEdgeVisited. assert (IE : inE h k = true) by (apply inE_true; rewrite (rpv_cap g0 _ _ _ Hh); lia).
      rewrite rd_eflags_ok by auto. cbn [bind]. rewrite wr_eflags_ok by auto. cbn [wp]. rewrite (r_fl _ _ _ _ Hh). cbn [setfl set_V v_fl eV fl].
      exists (upd F k (Z.ldiff (F k) EDGE_VISITED_MASK)). split; [|split; [exact E1|]].
      + pose proof (rpv_eflags _ _ _ (upd (eflags h) k (Z.ldiff (F k) EDGE_VISITED_MASK)) Hh) as Hh2. unfold IsoP1.rpv in *.
        eapply (rp_ext _ _ _ _ _ _ _ _ _ _ Hh2); auto. intros x. unfold setfl, set_V, v_fl. cbn [eV fl]. unfold upd. destruct (x =? k); [auto|]. now rewrite (r_fl _ _ _ _ Hh).
      + split; [|split]; intros e; unfold upd; destruct (Z.eqb_spec e k) as [->|]; auto.
        * intros _. apply land1_ldiff.
        * intros He. apply E2. lia.
        * rewrite <- E3. now apply land_ldiff_1.
        * rewrite <- E4. now apply land_ldiff_1. }
  apply wp_inv in V3. destruct V3 as (g3 & -> & F & H3 & E1 & E2 & E3 & E4). exists g3, F. split; [reflexivity|]. split; [auto|]. split; [|split; [|auto]].
  - constructor; [auto|]. intros e He. rewrite E2 by lia. cbn [In]. tauto.
  - intros x Hx. rewrite E1. apply V2. lia.
Qed.

(** ** Orientation *)
Variable a : est.
Local Notation s := (eV a).
Hypothesis G : geo NIL [] s.
Let G0 := g_base _ _ _ _ _ G.
Variable R : Z.
Hypothesis HR : isroot R.
Hypothesis NR : adj s R <> [].
Variable stk0 : list Z.
Hypothesis Cap : Z.of_nat (length stk0) + 2 * Z.of_nat (length (mem s R)) <= gstackCap g0.
Hypothesis NM : mem s R <> [].

(** The vertices in [D] have been given their final orientation; the rest is as in [a]. *)
Record turned (D : Z -> bool) (b : est) : Prop := {
  tu_adj : forall x, adj (eV b) x = dlist s D x; tu_nb : nb (eV b) = nb s;
  tu_fw : fw b = fw a; tu_prl : prl b = prl a; tu_pe : pe b = pe a; tu_fpc : fpc b = fpc a }.

Lemma adj_len g b stk x : rpv g b stk -> (length (adj (eV b) x) < efuel g)%nat.
Proof. intros H. apply (adj_len_chains _ _ x (r_chains _ _ _ _ H)). Qed.
Lemma push_pres b (sg : Z -> bool) inv x q : forall l l0 n g ws, rpv g b (sflat sg ws ++ stk0) -> adj (eV b) x = l0 ++ l ->
  (forall e, In e l -> q e = (Z.land (fl (eV b) e) EDGE_TYPE_MASK =? EDGE_TYPE_CHILD)) ->
  (forall e, In e l -> q e = true -> Z.lxor inv (Z.land (fl (eV b) e) EDGEFLAG_INVERTED_MASK) = ob (sg (nb (eV b) e))) ->
  Z.of_nat (length stk0) + 2 * Z.of_nat (length (filter q l) + length ws) <= gstackCap g0 -> (length l < n)%nat ->
  exists g', orient_push_loop n g inv true (hd NIL l) = Ret g' /\ rpv g' b (sflat sg (rev (map (nb (eV b)) (filter q l)) ++ ws) ++ stk0) /\ vflags g' = vflags g.
Proof.
  induction l as [|e l IH]; intros l0 n g ws H El Hq Hs Hc Hn; (destruct n as [|n]; [cbn [length] in Hn; lia|]); cbn [orient_push_loop hd].
  - exists g. split; [reflexivity|]. split; [exact H|auto].
  - assert (He : In e (adj (eV b) x)) by (rewrite El; apply in_app_iff; right; now left). rewrite eqb_false_neq by (eapply rp_ne; [exact H|exact He]).
    rewrite (rp_type _ _ _ _ _ _ H He). cbn [bind]. rewrite <- (Hq e (or_introl eq_refl)). pose proof (ch_range _ _ (r_chains _ _ _ _ H) _ _ He) as Re. cbn [filter] in *.
    assert (El' : adj (eV b) x = (l0 ++ [e]) ++ l) by now rewrite <- app_assoc.
    destruct (q e) eqn:Qe.
    + run. rewrite (r_nb _ _ _ _ H). unfold gp_GetEdgeFlagInverted. run. rewrite (r_fl _ _ _ _ H), (Hs e (or_introl eq_refl) Qe).
      destruct (push2_ok _ g b _ (nb (eV b) e) (ob (sg (nb (eV b) e))) H) as (g1 & W1 & H1).
      { cbn [set_vflags gstackCap]. rewrite app_length, sflat_len. cbn [length] in Hc. lia. }
      rewrite W1. cbn [bind]. rewrite (rp_next _ _ _ _ x l0 e l H1 El). cbn [bind].
      assert (V1 : vflags g1 = vflags g) by (unfold stk_push2, stk_push in W1; destruct (Z.ltb_spec (Z.of_nat (length (gstack g))) (gstackCap g)); cbn [guard bind] in W1; [|discriminate]; match type of W1 with guard ?c _ = _ => destruct c; cbn [guard] in W1; [|discriminate] end; injection W1 as <-; reflexivity).
      destruct (IH (l0 ++ [e]) n g1 (nb (eV b) e :: ws)) as (g' & W2 & H2 & V2); auto.
      * eapply rpv_any. cbn [sflat flat_map app]. exact H1.
      * intros y Hy. apply Hq. now right.
      * intros y Hy. apply Hs. now right.
      * cbn [length] in *. lia.
      * cbn [length] in Hn. lia.
      * exists g'. split; [exact W2|]. split; [|congruence]. cbn [map rev]. rewrite <- app_assoc. exact H2.
    + cbn [bind]. rewrite (rp_next _ _ _ _ x l0 e l H El). cbn [bind]. apply (IH (l0 ++ [e]) n g ws); auto.
      * intros y Hy. apply Hq. now right.
      * intros y Hy. apply Hs. now right.
      * cbn [length] in Hn. lia.
Qed.

Lemma orient_pres g F : rpv g (setfl a F) stk0 -> marked (fl s) F [] -> vis0 g -> (forall e, Z.land (F e) EDGEFLAG_INVERTED_MASK = Z.land (fl s e) EDGEFLAG_INVERTED_MASK) -> o s R = false ->
  exists g' b D, _OrientVerticesInBicomp g R true = Ret g' /\ rpv g' (setfl b F) stk0 /\ turned D b /\ (forall x, In x (vsof s R) -> D x = true) /\ (forall x, ~ In x (vsof s R) -> D x = false) /\ vis0 g'.
Proof.
  intros H M V0 Ei Ho. unfold _OrientVerticesInBicomp. pose proof (rpv_N g0 _ _ _ H) as KN.
  assert (LM : (0 < length (mem s R))%nat) by (destruct (mem s R); [congruence|cbn; lia]).
  assert (VR : 1 <= R <= 2 * N) by (unfold GeoP.isroot in HR; lia).
  destruct (push2_ok _ g _ _ R 0 H) as (g1 & W1 & H1); [cbn [set_vflags gstackCap]; lia|]. rewrite W1. cbn [bind].
  assert (Ns1 : gN g1 = N) by apply (k_N _ _ (r_keeps _ _ _ _ H1)).
  assert (Vf1 : vflags g1 = vflags g).
  { unfold stk_push2, stk_push in W1. destruct (Z.of_nat (length (gstack g)) <? gstackCap g); cbn [guard bind] in W1; [|discriminate]. match type of W1 with guard ?c _ = _ => destruct c; cbn [guard] in W1; [|discriminate] end. injection W1 as <-. reflexivity. }
  assert (Sz : stk_size g = Z.of_nat (length stk0)) by (unfold stk_size; now rewrite (r_stack _ _ _ _ H)). rewrite Sz.
  set (P := fun D h ws => exists b, rpv h (setfl b F) (sflat (o s) ws ++ stk0) /\ turned D b /\ vis0 h).
  destruct (walk_ok g0 kids St s G R HR NR P (fun n h => orient_loop n h (Z.of_nat (length stk0)) true)) with (g := g1) (n := S (S (Z.to_nat (2 * gN g1)))) as (g' & D & W2 & (b & H2 & T2 & V2) & D1 & D2).
  - intros D h n (b & Hh & _). cbn [orient_loop]. unfold stk_size. rewrite (r_stack _ _ _ _ Hh). cbn [sflat flat_map app]. now rewrite Z.leb_refl.
  - intros D h W ws n (b & Hh & T & Vh) WV WD Cp. cbn [orient_loop]. unfold stk_size. rewrite (r_stack _ _ _ _ Hh), app_length, sflat_len. cbn [length].
    replace (Z.of_nat (2 * S (length ws) + length stk0) <=? Z.of_nat (length stk0)) with false by lia.
    cbn [sflat flat_map app] in Hh. fold (sflat (o s) ws) in Hh. destruct (pop2_ok _ h _ _ W (ob (o s W)) Hh) as (h1 & W3 & H3). rewrite W3. cbn [bind].
    assert (Vh1 : vflags h1 = vflags h). { unfold stk_pop2, stk_pop in W3. rewrite (r_stack _ _ _ _ Hh) in W3. cbn [bind] in W3. gsimp. injection W3 as <-. reflexivity. }
    assert (WR : 1 <= W <= 2 * N). { apply in_vsof in WV. unfold GeoP.isroot, GeoP.prim in *. destruct WV as [->|[? _]]; lia. }
    assert (Inv : exists h2 b2, (if negb (ob (o s W) =? 0) then _InvertVertex h1 W else Ret h1) = Ret h2 /\ rpv h2 (setfl b2 F) (sflat (o s) ws ++ stk0) /\ turned (upd D W true) b2 /\ vis0 h2).
    { assert (H3' : rpv h1 (setfl b F) (sflat (o s) ws ++ stk0)) by (eapply rpv_any; exact H3).
      destruct (o s W) eqn:Eo; cbn [ob Z.eqb negb].
      - pose proof (invert_state h1 _ W (r_chains _ _ _ _ H3') ltac:(now apply (isv_iff _ _ _ _ W H3'))) as IV.
        destruct (invert_rp _ h1 _ _ W H3' WR) as (h2 & W4 & H4). rewrite W4 in IV. cbn [wp] in IV. destruct IV as [IV _].
        exists h2. eexists. split; [exact W4|]. split; [|split].
        + eapply rpv_any. cbn [setfl set_V v_fl eV nb fl e0 e1 adj fw prl pe fpc vis o X B] in H4.
          match type of H4 with rp _ _ ?st _ => instantiate (1 := st) end. exact H4.
        + destruct T. constructor; cbn [set_V eV adj nb fw prl pe fpc setfl v_fl]; auto. intros x. unfold dlist, upd. destruct (Z.eqb_spec x W) as [->|]; [|apply tu_adj0]. rewrite tu_adj0. unfold dlist. rewrite WD. unfold rot. now rewrite Eo.
        + intros x Hx. rewrite (iv_vflags _ _ _ _ IV), Vh1. now apply Vh.
      - exists h1, b. split; [reflexivity|]. split; [auto|]. split; [|intros x Hx; rewrite Vh1; now apply Vh].
        destruct T. constructor; auto. intros x. rewrite tu_adj0. unfold dlist, upd. destruct (Z.eqb_spec x W) as [->|]; [|reflexivity]. rewrite WD. unfold rot. now rewrite Eo. }
    destruct Inv as (h2 & b2 & W4 & H4 & T4 & V4). rewrite W4. cbn [bind]. rewrite (rp_first _ _ _ _ W H4 WR). cbn [bind].
    assert (EW : forall e, In e (adj (eV b2) W) <-> In e (adj s W)) by (intros e; rewrite (tu_adj _ _ T4); apply in_dlist).
    set (q := fun e => Z.land (F e) EDGE_TYPE_MASK =? EDGE_TYPE_CHILD).
    assert (Hq : forall e, q e = true <-> childarc s e) by (intros e; unfold q, childarc; rewrite (m_ty _ _ _ _ M); apply Z.eqb_eq).
    assert (Kc : kidsof s W (map (nb s) (filter q (adj (eV b2) W)))).
    { apply (kids_list g0 s G); [exact EW|apply (ch_nodup _ _ (r_chains _ _ _ _ H4) W)|]. intros e _. apply Hq. }
    specialize (Cp _ Kc). rewrite app_length, map_length in Cp.
    destruct (push_pres (setfl b2 F) (o s) (ob (o s W)) W q (adj (eV b2) W) [] (efuel h2) h2 ws H4 eq_refl) as (h3 & W5 & H5 & V5).
    + reflexivity.
    + cbn [setfl set_V v_fl eV fl nb]. intros e He Qe. apply Hq in Qe. apply EW in He. rewrite (tu_nb _ _ T4), Ei, (g_sign _ _ _ G0 W e He Qe).
      unfold invarc. rewrite land_16. destruct (Z.testbit (fl s e) 4), (o s W); reflexivity.
    + lia.
    + exact (adj_len h2 _ _ W H4).
    + cbn [setfl set_V v_fl eV adj] in W5. cbn [setfl set_V v_fl eV adj]. rewrite W5. cbn [bind]. exists h3. eexists. split; [reflexivity|]. split; [exact Kc|]. exists b2. split; [|split; [auto|]].
      * cbn [setfl set_V v_fl eV nb] in H5. rewrite (tu_nb _ _ T4) in H5. exact H5.
      * intros x Hx. rewrite V5. now apply V4.
  - exists a. split; [eapply rpv_any; cbn [sflat flat_map app]; rewrite Ho; exact H1|]. split; [constructor; auto|]. intros x Hx. rewrite Vf1. now apply V0.
  - rewrite Ns1. lia.
  - exists g', b, D. split; [exact W2|]. cbn [sflat flat_map app] in H2. auto.
Qed.

(** ** The two walks that clear flags in the component *)
Lemma marked_clear F0 F e : marked F0 F [] -> marked F0 (upd F e (Z.ldiff (F e) EDGE_VISITED_MASK)) [].
Proof.
  intros [M1 M2]. constructor; intros x; unfold upd; destruct (Z.eqb_spec x e) as [->|]; auto.
  - rewrite <- M1. now apply land_ldiff_1.
  - intros _. rewrite land1_ldiff. cbn [In]. tauto.
Qed.
Lemma clear_edge_ok g b stk F0 F e x : rpv g (setfl b F) stk -> In e (adj (eV b) x) -> marked F0 F [] ->
  exists g' F', gp_ClearEdgeVisited g e = Ret g' /\ rpv g' (setfl b F') stk /\ marked F0 F' [] /\ vflags g' = vflags g.
Proof.
  intros H He M. assert (He' : In e (adj (eV (setfl b F)) x)) by exact He. pose proof (ch_range _ _ (r_chains _ _ _ _ H) _ _ He') as Re.
  unfold gp_ClearEdgeVisited. run. rewrite (r_fl _ _ _ _ H). cbn [setfl set_V v_fl eV fl].
  eexists. exists (upd F e (Z.ldiff (F e) EDGE_VISITED_MASK)). split; [reflexivity|]. split; [|split; [now apply marked_clear|reflexivity]].
  pose proof (rpv_eflags _ _ _ (upd (eflags g) e (Z.ldiff (F e) EDGE_VISITED_MASK)) H) as Hh2. unfold IsoP1.rpv in *.
  eapply (rp_ext _ _ _ _ _ _ _ _ _ _ Hh2); auto. intros y. unfold setfl, set_V, v_fl. cbn [eV fl]. unfold upd. destruct (y =? e); [auto|]. now rewrite (r_fl _ _ _ _ H).
Qed.
Lemma bpush edges b F0 x q : forall l l0 n g ws F, rpv g (setfl b F) (ws ++ stk0) -> adj (eV b) x = l0 ++ l -> marked F0 F [] ->
  (forall e, q e = (Z.land (F0 e) EDGE_TYPE_MASK =? EDGE_TYPE_CHILD)) ->
  Z.of_nat (length stk0) + Z.of_nat (length (filter q l) + length ws) <= gstackCap g0 -> (length l < n)%nat ->
  exists g' F', bicomp_push_loop n edges g (hd NIL l) = Ret g' /\ rpv g' (setfl b F') ((rev (map (nb (eV b)) (filter q l)) ++ ws) ++ stk0) /\ marked F0 F' [] /\ vflags g' = vflags g.
Proof.
  induction l as [|e l IH]; intros l0 n g ws F H El M Hq Hc Hn; (destruct n as [|n]; [cbn [length] in Hn; lia|]); cbn [bicomp_push_loop hd].
  - exists g, F. split; [reflexivity|]. split; [exact H|auto].
  - assert (He : In e (adj (eV b) x)) by (rewrite El; apply in_app_iff; right; now left).
    rewrite eqb_false_neq by (exact (rp_ne _ _ _ _ _ _ H He)).
    assert (E1 : exists g1 F1, (if edges then gp_ClearEdgeVisited g e else Ret g) = Ret g1 /\ rpv g1 (setfl b F1) (ws ++ stk0) /\ marked F0 F1 [] /\ vflags g1 = vflags g).
    { destruct edges; [eapply clear_edge_ok; eauto|]. exists g, F. auto. }
    destruct E1 as (g1 & F1 & W1 & H1 & M1 & V1). rewrite W1. cbn [bind].
    assert (He1 : In e (adj (eV (setfl b F1)) x)) by exact He.
    rewrite (rp_type _ _ _ _ _ _ H1 He1). cbn [bind setfl set_V v_fl eV fl]. rewrite (m_ty _ _ _ _ M1), <- (Hq e). pose proof (ch_range _ _ (r_chains _ _ _ _ H1) _ _ He1) as Re. cbn [filter] in *.
    assert (El' : adj (eV b) x = (l0 ++ [e]) ++ l) by now rewrite <- app_assoc.
    destruct (q e) eqn:Qe.
    + run. rewrite (r_nb _ _ _ _ H1). cbn [setfl set_V v_fl eV nb length] in *.
      destruct (push1_ok g1 _ _ (nb (eV b) e) H1) as (g2 & W2 & H2 & V2). { rewrite app_length. lia. }
      rewrite W2. cbn [bind]. rewrite (rp_next _ _ _ _ x l0 e l H2 El). cbn [bind].
      destruct (IH (l0 ++ [e]) n g2 (nb (eV b) e :: ws) F1) as (g' & F' & W3 & H3 & M3 & V3); auto; [cbn [length]; lia|lia|].
      exists g', F'. split; [exact W3|]. split; [|split; [auto|congruence]]. cbn [map rev]. rewrite <- (app_assoc (rev _) [_] ws). exact H3.
    + cbn [bind]. rewrite (rp_next _ _ _ _ x l0 e l H1 El). cbn [bind].
      destruct (IH (l0 ++ [e]) n g1 ws F1) as (g' & F' & W3 & H3 & M3 & V3); auto; [cbn [length] in Hn; lia|].
      exists g', F'. split; [exact W3|]. split; [auto|]. split; [auto|congruence].
Qed.

Lemma bicomp_ok (edges : bool) m (act : graph -> Z -> res graph) g b F :
  (forall h x, act h x = (f <- rd_vflags h x ;; wr_vflags h x (Z.ldiff f m))) ->
  rpv g (setfl b F) stk0 -> (forall x e, In e (adj (eV b) x) <-> In e (adj s x)) -> nb (eV b) = nb s -> marked (fl s) F [] ->
  exists g' F' D, (let bottom := stk_size g in g <- stk_push g R ;; bicomp_loop (S (S (Z.to_nat (2 * gN g)))) edges act g bottom) = Ret g' /\
    rpv g' (setfl b F') stk0 /\ marked (fl s) F' [] /\ (forall x, In x (vsof s R) -> D x = true) /\ (forall x, ~ In x (vsof s R) -> D x = false) /\
    forall x, vflags g' x = if D x then Z.ldiff (vflags g x) m else vflags g x.
Proof.
  intros Ha H Eadj Enb M. cbn zeta. assert (Sz : stk_size g = Z.of_nat (length stk0)) by (unfold stk_size; now rewrite (r_stack _ _ _ _ H)). rewrite Sz.
  assert (LM : (0 < length (mem s R))%nat) by (destruct (mem s R); [congruence|cbn; lia]).
  destruct (push1_ok g _ _ R H ltac:(lia)) as (g1 & W1 & H1 & V1). rewrite W1. cbn [bind]. pose proof (rpv_N g0 _ _ _ H1) as Ns1.
  set (P := fun D h ws => exists F', rpv h (setfl b F') (ws ++ stk0) /\ marked (fl s) F' [] /\ forall x, vflags h x = if D x : bool then Z.ldiff (vflags g x) m else vflags g x).
  destruct (walk_ok g0 kids St s G R HR NR P (fun n h => bicomp_loop n edges act h (Z.of_nat (length stk0)))) with (g := g1) (n := S (S (Z.to_nat (2 * gN g1)))) as (g' & D & W2 & (F2 & H2 & M2 & V2) & D1 & D2).
  - intros D h n (F' & Hh & _). cbn [bicomp_loop]. unfold stk_size. rewrite (r_stack _ _ _ _ Hh). cbn [app]. now rewrite Z.leb_refl.
  - intros D h W ws n (F' & Hh & Mh & Vh) WV WD Cp. cbn [bicomp_loop]. unfold stk_size. rewrite (r_stack _ _ _ _ Hh), app_length. cbn [length].
    replace (Z.of_nat (S (length ws) + length stk0) <=? Z.of_nat (length stk0)) with false by lia.
    cbn [app] in Hh. destruct (pop1_ok h _ _ W Hh) as (h1 & W3 & H3 & Vh1). rewrite W3. cbn [bind].
    assert (WR : 1 <= W <= 2 * N). { apply in_vsof in WV. unfold GeoP.isroot, GeoP.prim in *. destruct WV as [->|[? _]]; lia. }
    rewrite Ha, (rd_vflags_rpv g0 _ _ _ W H3) by lia. cbn [bind].
    destruct (rpv_wr_vflags g0 _ _ _ W (Z.ldiff (vflags h1 W) m) H3 ltac:(lia)) as (h2 & W4 & H4 & V4). rewrite W4. cbn [bind].
    rewrite (rp_first _ _ _ _ W H4 WR). cbn [bind setfl set_V v_fl eV adj].
    set (q := fun e => Z.land (fl s e) EDGE_TYPE_MASK =? EDGE_TYPE_CHILD).
    assert (Kc : kidsof s W (map (nb s) (filter q (adj (eV b) W)))).
    { apply (kids_list g0 s G); [apply Eadj|apply (ch_nodup _ _ (r_chains _ _ _ _ H4) W)|]. intros e _. unfold q, childarc. apply Z.eqb_eq. }
    specialize (Cp _ Kc). rewrite app_length, map_length in Cp.
    destruct (bpush edges b (fl s) W q (adj (eV b) W) [] (efuel h2) h2 ws F' H4 eq_refl Mh) as (h3 & F3 & W5 & H5 & M5 & V5).
    + reflexivity.
    + lia.
    + exact (adj_len h2 _ _ W H4).
    + rewrite W5. cbn [bind]. exists h3. eexists. split; [reflexivity|]. split; [exact Kc|]. exists F3. split; [rewrite Enb in H5; exact H5|]. split; [auto|].
      intros x. rewrite V5, V4. unfold upd. destruct (Z.eqb_spec x W) as [->|]; [|now rewrite Vh1, Vh]. now rewrite Vh1, Vh, WD.
  - exists F. split; [exact H1|]. split; [auto|]. intros x. now rewrite V1.
  - rewrite Ns1. lia.
  - exists g', F2, D. auto 10.
Qed.
Lemma clear_vis_ok g b F : rpv g (setfl b F) stk0 -> (forall x e, In e (adj (eV b) x) <-> In e (adj s x)) -> nb (eV b) = nb s -> marked (fl s) F [] -> vis0 g ->
  exists g' F', _ClearVisitedFlagsInBicomp g R = Ret g' /\ rpv g' (setfl b F') stk0 /\ marked (fl s) F' [] /\ vis0 g'.
Proof.
  intros H E1 E2 M V0. destruct (bicomp_ok true VERTEX_VISITED_MASK gp_ClearVertexVisited g b F ltac:(reflexivity) H E1 E2 M) as (g' & F' & D & W & H' & M' & D1 & D2 & V).
  exists g', F'. split; [exact W|]. split; [auto|]. split; [auto|]. intros x Hx. rewrite V. destruct (D x); [apply land1_ldiff|now apply V0].
Qed.
Lemma clear_type_ok g b F : rpv g (setfl b F) stk0 -> (forall x e, In e (adj (eV b) x) <-> In e (adj s x)) -> nb (eV b) = nb s -> marked (fl s) F [] -> vis0 g ->
  exists g' F', _ClearVertexTypeInBicomp g R = Ret g' /\ rpv g' (setfl b F') stk0 /\ marked (fl s) F' [] /\ vis0 g' /\ forall x, In x (vsof s R) -> vtype g' x = 0.
Proof.
  intros H E1 E2 M V0. destruct (bicomp_ok false VERTEX_OBSTRUCTIONTYPE_MASK gp_ClearVertexObstructionType g b F ltac:(reflexivity) H E1 E2 M) as (g' & F' & D & W & H' & M' & D1 & D2 & V).
  exists g', F'. split; [exact W|]. split; [auto|]. split; [auto|]. split.
  - intros x Hx. rewrite V. destruct (D x); [|now apply V0]. rewrite <- (V0 x Hx). now apply ldiff_other.
  - intros x Hx. unfold vtype. rewrite V, (D1 x Hx). apply ldiff_self.
Qed.
End O2.
