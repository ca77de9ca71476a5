(** * GraphP4: capacity, initialisation and edit histories. *)
From Coq Require Import ZifyBool Permutation.
From Verif Require Import Base BaseP GraphRec GraphM GraphSpec GSimp LinkP GraphP GraphP2 GraphP3.

(** ** Loops *)
Lemma for_down_inv {A} (P : Z -> A -> Prop) (body : Z -> A -> res A) n : forall i s,
  P i s ->
  (forall k s, i - Z.of_nat n < k <= i -> P k s -> wp (body k s) (P (k - 1))) ->
  wp (for_down n i body s) (P (i - Z.of_nat n)).
Proof.
  induction n as [|n IH]; intros i s H0 HS; cbn [for_down].
  - apply wp_ret. replace (i - Z.of_nat 0) with i by lia. auto.
  - apply wp_bind. eapply wp_mono; [apply HS; [lia|exact H0]|]. intros s' H1.
    replace (i - Z.of_nat (S n)) with (i - 1 - Z.of_nat n) by lia.
    apply IH; auto. intros k s2 Hk. apply HS. lia.
Qed.

(** ** gp_EnsureArcCapacity *)
Lemma rep_holes_len g adj : rep g adj -> gM g + Z.of_nat (length (gholes g)) <= gCap g / 2.
Proof.
  intros R. pose proof (rep_storage _ _ R) as S. pose proof (st_cap _ _ S) as Hc.
  unfold gp_EdgeInUseIndexBound, gp_EdgeIndexBound in Hc.
  pose proof (st_even _ _ S) as Hev. rewrite Z.even_spec in Hev. destruct Hev as [k Hk].
  rewrite Hk in *. replace (2 * k / 2) with k by (rewrite Z.mul_comm, Z.div_mul; lia). lia.
Qed.

Lemma even_land r : (Z.land r 1 =? 0) = Z.even r.
Proof.
  change 1 with (Z.ones 1) at 1. rewrite Z.land_ones by lia. change (2 ^ 1) with 2.
  rewrite Zmod_even. destruct (Z.even r); reflexivity.
Qed.

Lemma ensure_grows_bounds g req :
  0 <= gM g -> gM g + Z.of_nat (length (gholes g)) <= gCap g / 2 ->
  Z.of_nat (length (gstack g)) <= gstackCap g -> gCap g < req ->
  wp (_EnsureArcCapacity g req) (fun r => snd r = C_OK /\ grown g (fst r) req).
Proof.
  intros HM HL Hst Hlt. unfold _EnsureArcCapacity. cbv zeta.
  unfold gp_EdgeIndexBound at 1. replace (2 + req <=? 2 + gCap g) with false by lia.
  set (ga := if gstackCap g <? 2 * req then _ else g).
  assert (Ga : ga = set_gstackCap g (gstackCap ga) /\ gstackCap g <= gstackCap ga /\ 2 * req <= gstackCap ga).
  { unfold ga. destruct (gstackCap g <? 2 * req) eqn:E1.
    - set (ss := if 2 * req <? 6 * gN g then 6 * gN g else 2 * req).
      assert (2 * req <= ss) by (unfold ss; destruct (2 * req <? 6 * gN g) eqn:?; lia).
      replace (ss <? Z.of_nat (length (gstack g))) with false by lia.
      gsimp. split; [destruct g; reflexivity|lia].
    - split; [destruct g; reflexivity|lia]. }
  destruct Ga as (Ga & Hcap & Hroom). clearbody ga. set (k0 := gstackCap ga) in *. clearbody k0. subst ga. gsimp.
  assert (Hreq : gCap g / 2 <= req / 2) by (apply Z.div_le_mono; lia).
  replace (req / 2 <? Z.of_nat (length (gholes g))) with false by lia.
  set (gb := set_gCap _ req).
  apply wp_bind. eapply wp_mono.
  { apply (for_up_inv (fun k h =>
       exists en ep nb fl, h = set_eflags (set_enbr (set_eprev (set_enext gb en) ep) nb) fl /\
       (forall x, en x = if (2 + gCap g <=? x) && (x <? k) then NIL else enext g x) /\
       (forall x, ep x = if (2 + gCap g <=? x) && (x <? k) then NIL else eprev g x) /\
       (forall x, nb x = if (2 + gCap g <=? x) && (x <? k) then NIL else enbr g x) /\
       (forall x, fl x = if (2 + gCap g <=? x) && (x <? k) then 0 else eflags g x))).
    - exists (enext gb), (eprev gb), (enbr gb), (eflags gb). unfold gp_EdgeIndexBound.
      repeat split; try (intros x; replace ((2 + gCap g <=? x) && (x <? 2 + gCap g)) with false by lia;
        reflexivity).
    - intros k h Hk (en & ep & nb & fl & -> & H1 & H2 & H3 & H4). unfold gp_EdgeIndexBound in Hk.
      rewrite init_edge_rec.
      + apply wp_ret. exists (upd en k NIL), (upd ep k NIL), (upd nb k NIL), (upd fl k 0).
        split; [reflexivity|].
        split; [|split; [|split]]; intros x; unfold upd; rewrite ?H1, ?H2, ?H3, ?H4;
        destruct (Z.eqb_spec x k) as [->|Hx];
          first [replace ((2 + gCap g <=? k) && (k <? k + 1)) with true by lia; reflexivity
                | replace (x <? k + 1) with (x <? k) by lia; reflexivity].
      + assert (0 <= gCap g) by (assert (0 <= gCap g / 2) by lia; pose proof (Z.mul_div_le (gCap g) 2 ltac:(lia)); lia).
        apply inE_true. unfold gp_EdgeIndexBound. gsimp. unfold gb. gsimp. lia. }
  intros h (en & ep & nb & fl & -> & H1 & H2 & H3 & H4). cbv beta. apply wp_ret. cbn [fst snd].
  split; [reflexivity|].
  replace (gp_EdgeIndexBound g + Z.of_nat (Z.to_nat (2 + req - gp_EdgeIndexBound g))) with (2 + req) in *
    by (unfold gp_EdgeIndexBound; lia).
  constructor; gsimp; first [assumption | reflexivity | unfold gb; gsimp; lia].
Qed.

Lemma ensure_grows g adj req :
  rep g adj -> Z.of_nat (length (gstack g)) <= gstackCap g -> gCap g < req ->
  wp (_EnsureArcCapacity g req) (fun r => snd r = C_OK /\ grown g (fst r) req).
Proof.
  intros R Hst Hlt. apply ensure_grows_bounds; auto; [apply R|eapply rep_holes_len; eauto].
Qed.

Lemma grown_rep g g' adj req :
  rep g adj -> grown g g' req -> gCap g <= req -> Z.even req = true -> rep g' adj.
Proof.
  intros R G Hlt Hev. pose proof (rep_storage _ _ R) as S. pose proof (rep_chains _ _ R) as C.
  assert (EB : gp_EdgeIndexBound g' = 2 + req) by (unfold gp_EdgeIndexBound; now rewrite (gr_cap _ _ _ G)).
  assert (HB : gp_EdgeInUseIndexBound g' = gp_EdgeInUseIndexBound g).
  { unfold gp_EdgeInUseIndexBound. now rewrite (gr_M _ _ _ G), (gr_holes _ _ _ G). }
  assert (Old : forall x, x < 2 + gCap g -> (2 + gCap g <=? x) && (x <? 2 + req) = false) by (intros; lia).
  pose proof (st_cap _ _ S) as Hcap. unfold gp_EdgeIndexBound in Hcap.
  assert (NB : forall x, x < 2 + gCap g -> enbr g' x = enbr g x).
  { intros x Hx. rewrite (gr_enbr _ _ _ G), Old by lia. reflexivity. }
  constructor.
  - eapply chains_agree; [exact C|apply G|rewrite EB; unfold gp_EdgeIndexBound; lia|..].
    + intros v _. now rewrite (gr_vfirst _ _ _ G), (gr_vlast _ _ _ G).
    + intros v e H. pose proof (ch_range _ _ C _ _ H) as Hr. unfold gp_EdgeIndexBound in Hr.
      rewrite (gr_enext _ _ _ G), (gr_eprev _ _ _ G), Old by lia. auto.
  - intros v e H. destruct (rep_twins _ _ R _ _ H) as [T1 T2].
    pose proof (ch_range _ _ C _ _ H) as Hr. pose proof (ch_range _ _ C _ _ T2) as Hr2.
    unfold gp_EdgeIndexBound in *. rewrite !NB by lia. auto.
  - constructor.
    + rewrite (gr_N _ _ _ G). apply S.
    + rewrite (gr_M _ _ _ G). apply S.
    + rewrite HB, EB. lia.
    + rewrite (gr_cap _ _ _ G). exact Hev.
    + rewrite (gr_cap _ _ _ G). apply G.
    + intros v e H. rewrite HB. eapply st_used; eauto.
    + intros h. rewrite (gr_holes _ _ _ G), HB. intros Hh. destruct (st_holes _ _ S h Hh) as (Hr & Hn & Ht).
      assert (Hc2 : Z.even (2 + gCap g) = true) by (rewrite even_add2; apply S).
      pose proof (proj2 (twin_lt_even h (2 + gCap g) ltac:(lia) Hc2 ltac:(lia)) ltac:(lia)).
      rewrite !NB by lia. auto.
    + rewrite (gr_holes _ _ _ G). apply S.
    + intros e. rewrite HB, (gr_holes _ _ _ G). intros He.
      assert (Hc2 : Z.even (2 + gCap g) = true) by (rewrite even_add2; apply S).
      pose proof (proj2 (twin_lt_even e (2 + gCap g) ltac:(lia) Hc2 ltac:(lia)) ltac:(lia)).
      rewrite NB by lia. apply (st_cover _ _ S); auto.
Qed.

Definition ensure_post (g g' : graph) (req r : Z) : Prop :=
  if (req <=? 0) || negb (Z.even req) then g' = g /\ r = C_NOTOK
  else if req <=? gCap g then g' = g /\ r = C_OK
  else r = C_OK /\ grown g g' req.

Lemma ensure_ok g adj req :
  rep g adj -> Z.of_nat (length (gstack g)) <= gstackCap g ->
  wp (gp_EnsureArcCapacity g req) (fun r => ensure_post g (fst r) req (snd r) /\ rep (fst r) adj).
Proof.
  intros R Hst. unfold gp_EnsureArcCapacity, ensure_post. rewrite even_land.
  destruct (req <=? 0) eqn:E0; [apply wp_ret; cbn [fst snd orb]; auto|].
  destruct (Z.even req) eqn:E1; cbn [negb orb]; [|apply wp_ret; cbn [fst snd]; auto].
  destruct (req <=? gCap g) eqn:E2.
  - replace (gCap g >=? req) with true by lia. apply wp_ret; cbn [fst snd]; auto.
  - replace (gCap g >=? req) with false by lia.
    pose proof (st_N _ _ (rep_storage _ _ R)). replace (gN g =? 0) with false by lia.
    eapply wp_mono; [eapply ensure_grows; eauto; lia|]. intros [g' r] [H1 H2]. cbn [fst snd] in *.
    split; auto. eapply grown_rep; eauto. lia.
Qed.

(** ** gp_AddEdge, gp_InsertEdge *)
Definition valid_vertex (g : graph) (v : Z) : bool := (1 <=? v) && (v <=? 2 * gN g).

Lemma add_is_body g u ul v vl :
  gp_AddEdge g u ul v vl =
  if negb (valid_vertex g u && valid_vertex g v) then Ret (g, C_NOTOK)
  else if gCap g / 2 <=? gM g then Ret (g, C_NONEMBEDDABLE)
  else insert_body g u NIL ul v NIL vl.
Proof.
  unfold gp_AddEdge, insert_body, valid_vertex.
  replace ((u <? 1) || (v <? 1) || negb (u <=? gN g + gN g) || negb (v <=? gN g + gN g))
    with (negb ((1 <=? u) && (u <=? 2 * gN g) && ((1 <=? v) && (v <=? 2 * gN g)))) by lia.
  replace (gM g >=? gCap g / 2) with (gCap g / 2 <=? gM g) by lia. reflexivity.
Qed.

Definition add_post (g g' : graph) (adj : Z -> list Z) (u ul v vl r : Z) : Prop :=
  if negb (valid_vertex g u && valid_vertex g v) then g' = g /\ r = C_NOTOK
  else if gCap g / 2 <=? gM g then g' = g /\ r = C_NONEMBEDDABLE
  else r = C_OK /\ insert_post g g' adj u NIL ul v NIL vl.

Lemma add_edge_ok g adj u ul v vl :
  rep g adj -> link_ok ul -> link_ok vl ->
  wp (gp_AddEdge g u ul v vl) (fun r => add_post g (fst r) adj u ul v vl (snd r)).
Proof.
  intros R Hul Hvl. rewrite add_is_body. unfold add_post.
  destruct (valid_vertex g u && valid_vertex g v) eqn:EV; cbn [negb]; [|apply wp_ret; auto].
  destruct (gCap g / 2 <=? gM g) eqn:EM; [apply wp_ret; auto|].
  unfold valid_vertex in EV. apply insert_body_ok; auto; try (unfold is_vertex; lia); lia.
Qed.

Definition insert_args_ok (g : graph) (u eu ul v ev vl : Z) : bool :=
  valid_vertex g u && valid_vertex g v &&
  ((eu =? NIL) || ((2 <=? eu) && (eu <? gp_EdgeInUseIndexBound g))) &&
  ((ev =? NIL) || ((2 <=? ev) && (ev <? gp_EdgeInUseIndexBound g))) &&
  ((ul =? 0) || (ul =? 1)) && ((vl =? 0) || (vl =? 1)).

Lemma insert_is_body g u eu ul v ev vl :
  0 <= gM g ->
  gp_InsertEdge g u eu ul v ev vl =
  if negb (insert_args_ok g u eu ul v ev vl) then Ret (g, C_NOTOK)
  else if gCap g / 2 <=? gM g then Ret (g, C_NONEMBEDDABLE)
  else insert_body g u eu ul v ev vl.
Proof.
  intros HM. unfold gp_InsertEdge, insert_body, insert_args_ok, valid_vertex, gp_GetLastVirtualVertex. cbv zeta.
  match goal with |- (if ?a then _ else _) = (if ?b then _ else _) => replace b with a end.
  - replace (gM g >=? gCap g / 2) with (gCap g / 2 <=? gM g) by lia. reflexivity.
  - unfold gp_EdgeInUseIndexBound, NIL. lia.
Qed.

Definition ins_post (g g' : graph) (adj : Z -> list Z) (u eu ul v ev vl r : Z) : Prop :=
  if negb (insert_args_ok g u eu ul v ev vl) then g' = g /\ r = C_NOTOK
  else if gCap g / 2 <=? gM g then g' = g /\ r = C_NONEMBEDDABLE
  else r = C_OK /\ insert_post g g' adj u eu ul v ev vl.

Lemma insert_edge_ok g adj u eu ul v ev vl :
  rep g adj -> (eu = NIL \/ arc_of g u eu) -> (ev = NIL \/ arc_of g v ev) ->
  wp (gp_InsertEdge g u eu ul v ev vl) (fun r => ins_post g (fst r) adj u eu ul v ev vl (snd r)).
Proof.
  intros R Heu Hev. rewrite insert_is_body by apply (rep_storage _ _ R). unfold ins_post.
  destruct (insert_args_ok g u eu ul v ev vl) eqn:EV; cbn [negb]; [|apply wp_ret; auto].
  destruct (gCap g / 2 <=? gM g) eqn:EM; [apply wp_ret; auto|].
  unfold insert_args_ok, valid_vertex in EV.
  apply insert_body_ok; auto; try (unfold is_vertex; lia); try (unfold link_ok; lia).
  - destruct Heu as [H|H]; auto. right. now apply (rep_arc_of _ _ _ _ R).
  - destruct Hev as [H|H]; auto. right. now apply (rep_arc_of _ _ _ _ R).
Qed.

(** ** gp_DynamicAddEdge *)
Definition dyn_newcap (g : graph) : Z :=
  let c := (gCap g - 2) * 2 in if c >? gN g * (gN g - 1) then gN g * (gN g - 1) else c.

Lemma dyn_add_ok g adj u ul v vl :
  rep g adj -> Z.of_nat (length (gstack g)) <= gstackCap g -> link_ok ul -> link_ok vl -> dyn_fits g ->
  wp (gp_DynamicAddEdge g u ul v vl)
     (fun r => exists g1 r1, ensure_post g g1 (dyn_newcap g) r1 /\
        if negb (valid_vertex g u && valid_vertex g v) then fst r = g /\ snd r = C_NOTOK
        else if negb (gCap g / 2 <=? gM g) then add_post g (fst r) adj u ul v vl (snd r)
        else if negb (r1 =? C_OK) then fst r = g1 /\ snd r = r1
        else rep g1 adj /\ add_post g1 (fst r) adj u ul v vl (snd r)).
Proof.
  intros R Hst Hul Hvl Hfit.
  destruct (wp_inv _ _ (ensure_ok g adj (dyn_newcap g) R Hst)) as ([g1 r1] & E1 & P1 & R1). cbn [fst snd] in *.
  unfold gp_DynamicAddEdge.
  replace ((u <? 1) || (v <? 1) || negb (u <=? gN g + gN g) || negb (v <=? gN g + gN g))
    with (negb (valid_vertex g u && valid_vertex g v)) by (unfold valid_vertex; lia).
  destruct (valid_vertex g u && valid_vertex g v) eqn:EV; cbn [negb].
  2:{ apply wp_ret. exists g1, r1. auto. }
  destruct (wp_inv _ _ (add_edge_ok g adj u ul v vl R Hul Hvl)) as ([g2 r2] & E2 & P2). cbn [fst snd] in *.
  rewrite E2, bind_ret. cbv beta iota.
  assert (P2' := P2). unfold add_post in P2. rewrite EV in P2. cbn [negb] in P2.
  destruct (gCap g / 2 <=? gM g) eqn:EM; cbn [negb].
  - destruct P2 as [-> ->]. change (C_NONEMBEDDABLE =? C_NONEMBEDDABLE) with true. cbv iota.
    rewrite guard_true.
    2:{ unfold dyn_fits, int_ok, INT_MAX, gp_GetArcCapacity in *.
        pose proof (st_cap _ _ (rep_storage _ _ R)) as Hc. pose proof (st_M _ _ (rep_storage _ _ R)).
        unfold gp_EdgeInUseIndexBound, gp_EdgeIndexBound in Hc.
        pose proof (st_N _ _ (rep_storage _ _ R)). nia. }
    change (if gp_GetArcCapacity g * 2 >? gN g * (gN g - 1) then gN g * (gN g - 1) else gp_GetArcCapacity g * 2)
      with (dyn_newcap g).
    cbv zeta. rewrite E1. rewrite bind_ret. cbv beta iota.
    destruct (Z.eqb_spec r1 C_OK) as [->|Hr1]; cbn [negb].
    + eapply wp_mono; [eapply (add_edge_ok g1); eauto|]. intros [g3 r3] P3. cbn [fst snd] in *.
      exists g1, C_OK. split; [exact P1|]. change (C_OK =? C_OK) with true. cbn [negb]. auto.
    + apply wp_ret. exists g1, r1. split; auto. apply Z.eqb_neq in Hr1. rewrite Hr1. cbn [negb]. auto.
  - destruct P2 as [-> P2]. cbn [Z.eqb C_OK C_NONEMBEDDABLE]. apply wp_ret. exists g1, r1. auto.
Qed.

(** ** Initialisation *)
Lemma blank_rep g :
  1 <= gN g -> gM g = 0 -> 0 <= gCap g -> Z.even (gCap g) = true -> gCap g / 2 <= gholesCap g ->
  gholes g = [] -> vfirst g = zfun -> vlast g = zfun -> rep g no_adj.
Proof.
  intros HN HM Hc Hev Hhc Hh Hf Hl.
  assert (HB : gp_EdgeInUseIndexBound g = 2) by (unfold gp_EdgeInUseIndexBound; rewrite HM, Hh; reflexivity).
  constructor.
  - constructor; unfold no_adj; simpl; intros; try tauto; rewrite ?Hf, ?Hl; auto. constructor.
  - intros v e [].
  - constructor.
    + exact HN.
    + lia.
    + rewrite HB. unfold gp_EdgeIndexBound. lia.
    + exact Hev.
    + exact Hhc.
    + intros v e [].
    + rewrite Hh. intros h [].
    + rewrite Hh. constructor.
    + rewrite HB. intros; lia.
Qed.

(** Blank records: flags of records that are not in use are zero. *)
Definition clean (g : graph) : Prop :=
  forall e, 2 <= e < gp_EdgeIndexBound g -> ~ in_use g e -> eflags g e = 0.

Lemma even_div2_half c : Z.even c = true -> (2 + c) / 2 = 1 + c / 2.
Proof. intros _. replace (2 + c) with (c + 1 * 2) by lia. rewrite Z.div_add by lia. lia. Qed.

Lemma fresh_ok req N :
  1 <= N ->
  wp (fresh_graph req N) (fun g => rep g no_adj /\ gN g = N /\ clean g /\ gstack g = [] /\
     gCap g = (if (0 <? req) && Z.even req then req else 6 * N)).
Proof.
  intros HN. unfold fresh_graph, gp_EnsureArcCapacity. rewrite even_land.
  assert (K : forall c, 0 <= c -> Z.even c = true ->
     let g := fst (gp_InitGraph (set_gCap gp_New c) N) in
     rep g no_adj /\ gN g = N /\ clean g /\ gstack g = [] /\ gCap g = if 0 <? c then c else 6 * N).
  { intros c Hc Hev. unfold gp_InitGraph. replace (N <=? 0) with false by lia.
    cbn [gN set_gCap gp_New Z.eqb negb]. unfold _InitGraph. cbv zeta.
    cbn [fst]. gsimp. cbn [gCap set_gCap gp_New set_gN].
    assert (HC : (if c >? 0 then c else 2 * 3 * N) = if 0 <? c then c else 6 * N).
    { destruct (0 <? c) eqn:E.
      - replace (c >? 0) with true by lia. auto.
      - replace (c >? 0) with false by lia. lia. }
    rewrite HC. set (cc := if 0 <? c then c else 6 * N).
    assert (Hcc : 0 <= cc /\ Z.even cc = true).
    { unfold cc. destruct (0 <? c); [auto|]. split; [lia|]. replace (6 * N) with (2 * (3 * N)) by lia.
      apply Z.even_spec. exists (3 * N). auto. }
    unfold _InitIsolatorContext, _InitEdges, _InitVertices, lists_reset, gp_New. gsimp.
    split; [|split; [|split; [|split]]]; auto.
    - apply blank_rep; gsimp; auto; try tauto. unfold gp_EdgeIndexBound. gsimp.
      rewrite even_div2_half by tauto. lia.
    - intros e _ _. reflexivity. }
  destruct (req <=? 0) eqn:E0.
  { cbn [bind]. apply wp_ret. replace (0 <? req) with false by lia. cbn [andb].
    apply (K 0); [lia|reflexivity]. }
  destruct (Z.even req) eqn:E1; cbn [negb].
  - cbn [gCap gN gp_New]. replace (0 >=? req) with false by lia. cbn [Z.eqb bind].
    apply wp_ret. replace (0 <? req) with true by lia. cbn [andb].
    specialize (K req ltac:(lia) E1). cbv zeta in K. replace (0 <? req) with true in K by lia. exact K.
  - cbn [bind]. apply wp_ret. rewrite andb_false_r. apply (K 0); [lia|reflexivity].
Qed.

Lemma reinit_ok g adj :
  rep g adj ->
  let g' := gp_ReinitializeGraph g in
  rep g' no_adj /\ clean g' /\ gstack g' = [] /\ gM g' = 0 /\ gN g' = gN g /\ gCap g' = gCap g /\
  gstackCap g' = gstackCap g.
Proof.
  intros R. cbv zeta. unfold gp_ReinitializeGraph. pose proof (rep_storage _ _ R) as S.
  pose proof (st_N _ _ S). replace (gN g <=? 0) with false by lia.
  unfold _ReinitializeGraph, _InitIsolatorContext, _InitEdges, _InitVertices, lists_reset. gsimp.
  split; [|repeat split; auto].
  apply blank_rep; gsimp; auto; try apply S.
  pose proof (st_cap _ _ S) as Hc. pose proof (st_M _ _ S).
  unfold gp_EdgeInUseIndexBound, gp_EdgeIndexBound in Hc. lia.
Qed.

(** ** The clean invariant *)
Lemma insert_clean g g' adj u eu ul v ev vl :
  rep g adj -> clean g -> insert_post g g' adj u eu ul v ev vl -> is_vertex g u -> is_vertex g v ->
  clean g' /\ (gM g < gCap g / 2 ->
     eflags g' (snd (take_edge_slot g)) = 0 /\ eflags g' (twin (snd (take_edge_slot g))) = 0).
Proof.
  intros R Cl P Hu Hv. pose proof (ip_frame _ _ _ _ _ _ _ _ _ P) as FR.
  pose proof (ip_rep _ _ _ _ _ _ _ _ _ P) as R'.
  assert (EB : gp_EdgeIndexBound g' = gp_EdgeIndexBound g) by (unfold gp_EdgeIndexBound; now rewrite (if_cap _ _ FR)).
  split.
  - intros e He Hn. rewrite (if_eflags _ _ FR). apply Cl; [lia|].
    intros [U1 U2]. apply Hn. split.
    + unfold gp_EdgeInUseIndexBound in *. rewrite (if_M _ _ FR), (if_holes _ _ FR).
      destruct (gholes g); cbn [tl length] in *; lia.
    + rewrite (ip_enbr _ _ _ _ _ _ _ _ _ P). unfold is_vertex, NIL in *.
      destruct (e =? _); [lia|]. destruct (e =? _); [lia|]. auto.
  - intros HM. destruct (slot_facts g adj R HM) as (Sv & Su & Fv & Fu).
    rewrite (if_eflags _ _ FR). split; apply Cl; auto; intros H; apply (rep_in_use _ _ _ R) in H;
    destruct H as [w H]; [exact (Fv _ H)|exact (Fu _ H)].
Qed.

Lemma delete_clean g g' adj e :
  rep g adj -> clean g -> in_use g e -> delete_frame g g' e -> clean g'.
Proof.
  intros R Cl Hu D x Hx Hn. rewrite (df_eflags _ _ _ D).
  destruct ((x =? e) || (x =? twin e)) eqn:E; auto.
  apply Cl; [unfold gp_EdgeIndexBound in *; rewrite (df_cap _ _ _ D) in Hx; lia|].
  intros [U1 U2]. apply Hn. split.
  - unfold gp_EdgeInUseIndexBound at 1. rewrite (df_M _ _ _ D), (df_holes _ _ _ D).
    destruct (e <? gp_EdgeInUseIndexBound g - 2) eqn:Elt; cbn [length]; unfold gp_EdgeInUseIndexBound in *; [lia|].
    destruct Hu as [Hu _]. unfold gp_EdgeInUseIndexBound in Hu.
    destruct (Z_lt_dec x (2 + 2 * (gM g - 1 + Z.of_nat (length (gholes g))))); [lia|]. exfalso.
    destruct (div2_eq_twin x e ltac:(lia) ltac:(lia)) as [H|H]; [Z.div_mod_to_equations; lia|..];
      unfold twin in E; lia.
  - now rewrite (df_enbr _ _ _ D), E.
Qed.

Lemma grown_clean g g' req adj : rep g adj -> clean g -> grown g g' req -> clean g'.
Proof.
  intros R Cl G x Hx Hn. rewrite (gr_eflags _ _ _ G).
  destruct ((2 + gCap g <=? x) && (x <? 2 + req)) eqn:E; auto.
  apply Cl.
  - unfold gp_EdgeIndexBound in *. rewrite (gr_cap _ _ _ G) in Hx. lia.
  - intros [U1 U2]. apply Hn. split.
    + unfold gp_EdgeInUseIndexBound in *. now rewrite (gr_M _ _ _ G), (gr_holes _ _ _ G).
    + now rewrite (gr_enbr _ _ _ G), E.
Qed.

(** ** Histories *)
Definition stk_room (g : graph) : Prop := 0 <= gCap g /\ 2 * gCap g <= gstackCap g.
Definition hist_inv (g : graph) : Prop :=
  (exists adj, rep g adj) /\ clean g /\ gstack g = [] /\ stk_room g.

Lemma stack_len0 g : gstack g = [] -> stk_room g -> Z.of_nat (length (gstack g)) <= gstackCap g.
Proof. intros -> [H1 H2]. cbn [length]. lia. Qed.

Lemma add_post_inv g g' adj u ul v vl r :
  rep g adj -> clean g -> gstack g = [] -> stk_room g ->
  add_post g g' adj u ul v vl r -> hist_inv g'.
Proof.
  intros R Cl Hs Hc. unfold add_post, hist_inv.
  destruct (valid_vertex g u && valid_vertex g v) eqn:EV; cbn [negb]; [|intros [-> _]; eauto 6].
  destruct (gCap g / 2 <=? gM g); [intros [-> _]; eauto 6|]. intros [_ P].
  unfold valid_vertex in EV.
  pose proof (ip_frame _ _ _ _ _ _ _ _ _ P) as FR.
  split; [eexists; apply P|]. split; [|unfold stk_room; rewrite (if_stack _ _ FR), (if_stackCap _ _ FR), (if_cap _ _ FR); auto].
  eapply insert_clean; eauto; unfold is_vertex; lia.
Qed.

Lemma ensure_post_inv g g' adj req r :
  rep g adj -> clean g -> gstack g = [] -> stk_room g ->
  rep g' adj -> ensure_post g g' req r -> hist_inv g'.
Proof.
  intros R Cl Hs Hc R'. unfold ensure_post, hist_inv.
  destruct ((req <=? 0) || negb (Z.even req)); [intros [-> _]; eauto 6|].
  destruct (req <=? gCap g) eqn:Eq; [intros [-> _]; eauto 6|].
  intros [_ G]. split; [eauto|]. split; [exact (grown_clean _ _ _ _ R Cl G)|].
  unfold stk_room. rewrite (gr_stack _ _ _ G), (gr_cap _ _ _ G). pose proof (gr_stackRoom _ _ _ G).
  destruct Hc. split; auto; lia.
Qed.

Lemma gstep_inv g o : hist_inv g -> gop_valid g o -> wp (gstep g o) (fun r => hist_inv (fst r)).
Proof.
  intros ((adj & R) & Cl & Hs & Hc) Hv. pose proof (stack_len0 _ Hs Hc) as Hst.
  destruct o as [u ul v vl|u ul v vl|u eu ul v ev vl|e l|c| |e f]; cbn [gstep gop_valid] in *.
  - destruct Hv. eapply wp_mono; [eapply add_edge_ok; eauto|]. intros [g' r] P. eapply add_post_inv; eauto.
  - destruct Hv as (H1 & H2 & H3). eapply wp_mono; [eapply dyn_add_ok; eauto|]. intros [g' r] (g1 & r1 & E & P). cbn [fst snd] in *.
    destruct (valid_vertex g u && valid_vertex g v); cbn [negb] in P.
    2:{ destruct P as [-> _]. unfold hist_inv; eauto 6. }
    destruct (gCap g / 2 <=? gM g); cbn [negb] in P.
    2:{ eapply add_post_inv; eauto. }
    destruct (r1 =? C_OK) eqn:Er; cbn [negb] in P.
    + destruct P as [R1 P]. destruct (ensure_post_inv _ _ _ _ _ R Cl Hs Hc R1 E) as (_ & C1 & S1 & K1).
      eapply add_post_inv; eauto.
    + destruct P as [-> ->]. unfold ensure_post in E.
      destruct ((dyn_newcap g <=? 0) || negb (Z.even (dyn_newcap g))).
      { destruct E as [-> _]. unfold hist_inv; eauto 6. }
      destruct (dyn_newcap g <=? gCap g).
      { destruct E as [-> _]. unfold hist_inv; eauto 6. }
      destruct E as [-> _]. discriminate.
  - destruct Hv as (H1 & H2). eapply wp_mono; [eapply insert_edge_ok; eauto|]. intros [g' r] P. cbn [fst snd] in *.
    unfold ins_post in P. destruct (insert_args_ok g u eu ul v ev vl) eqn:EA; cbn [negb] in P.
    2:{ destruct P as [-> _]. unfold hist_inv; eauto 6. }
    destruct (gCap g / 2 <=? gM g). { destruct P as [-> _]. unfold hist_inv; eauto 6. }
    destruct P as [_ P]. pose proof (ip_frame _ _ _ _ _ _ _ _ _ P) as FR.
    split; [eexists; apply P|]. split; [|unfold stk_room; rewrite (if_stack _ _ FR), (if_stackCap _ _ FR), (if_cap _ _ FR); auto].
    unfold insert_args_ok, valid_vertex in EA. eapply insert_clean; eauto; unfold is_vertex; lia.
  - destruct Hv as (H1 & H2). eapply wp_mono; [eapply delete_edge_ok; eauto|].
    intros [g' r] (R' & D & _). cbn [fst snd] in *.
    split; [eauto|]. split; [exact (delete_clean _ _ _ _ R Cl H1 D)|].
    unfold stk_room. rewrite (df_stack _ _ _ D), (df_stackCap _ _ _ D), (df_cap _ _ _ D). auto.
  - eapply wp_mono; [eapply ensure_ok; eauto|]. intros [g' r] [P R']. cbn [fst snd] in *.
    exact (ensure_post_inv _ _ _ _ _ R Cl Hs Hc R' P).
  - apply wp_ret. cbn [fst]. destruct (reinit_ok g adj R) as (R' & C' & S' & _ & _ & KC & K'). cbv zeta in *.
    split; [eauto|]. split; auto. split; auto. unfold stk_room. now rewrite K', KC.
  - assert (Hv' := Hv). apply (rep_in_use _ _ _ R) in Hv'. destruct Hv' as [v Hin].
    pose proof (ch_range _ _ (rep_chains _ _ R) _ _ Hin).
    rewrite wr_eflags_ok by (apply inE_true; lia). rewrite bind_ret. apply wp_ret. cbn [fst].
    split; [|split; [|auto]].
    + exists adj. destruct R as [C T S]. constructor; auto.
      * eapply chains_congr; [..|exact C]; reflexivity.
      * destruct S; constructor; auto.
    + intros x Hx Hn. gsimp. rewrite upd_other; [apply Cl; auto|].
      intros ->. exact (Hn Hv).
Qed.

Lemma init_stackcap g N : 1 <= N -> 0 <= gCap g -> gN g = 0 -> stk_room (fst (gp_InitGraph g N)).
Proof.
  intros HN Hc H0. unfold gp_InitGraph. replace (N <=? 0) with false by lia. rewrite H0. cbn [Z.eqb negb].
  unfold _InitGraph, stk_room. cbv zeta. cbn [fst].
  unfold _InitIsolatorContext, _InitEdges, _InitVertices, lists_reset. gsimp.
  destruct (gCap g >? 0) eqn:E0; destruct (_ <? 6 * N) eqn:E; unfold gp_EdgeIndexBound in *; gsimp; cbn [gCap set_gCap set_gN] in *; lia.
Qed.

Lemma reach_inv g : reach g -> hist_inv g.
Proof.
  induction 1 as [req N g HN Hf|g o g' r Hr IH Hv Hs].
  - pose proof (fresh_ok req N HN) as W. rewrite Hf in W. cbn [wp] in W.
    destruct W as (R & _ & Cl & Hst & _). split; [eauto|]. split; auto. split; auto.
    unfold fresh_graph in Hf.
    assert (HG : exists c, 0 <= c /\ gp_EnsureArcCapacity gp_New req = Ret (set_gCap gp_New c, if req <=? 0 then C_NOTOK else
        if negb (Z.land req 1 =? 0) then C_NOTOK else C_OK)).
    { unfold gp_EnsureArcCapacity. destruct (req <=? 0) eqn:E0; [exists 0; split; [lia|reflexivity]|].
      destruct (negb (Z.land req 1 =? 0)); [exists 0; split; [lia|reflexivity]|].
      cbn [gCap gN gp_New]. replace (0 >=? req) with false by lia.
      exists req. split; [lia|reflexivity]. }
    destruct HG as (c & Hc & HG). rewrite HG, bind_ret in Hf. injection Hf as <-.
    apply init_stackcap; auto.
  - pose proof (gstep_inv g o IH Hv) as W. rewrite Hs in W. exact W.
Qed.
