(** * CopyP: copying graphs. *)
From Coq Require Import ZifyBool.
From Verif Require Import Base BaseP GraphRec GraphM GraphSpec GSimp LinkP GraphP GraphP2 GraphP3 GraphP4 GraphP5 CopySpec.

Definition mix (lo hi : Z) (s d : Z -> Z) (x : Z) : Z := if (lo <=? x) && (x <? hi) then s x else d x.

Lemma mix_step lo k s d f : lo <= k -> (forall x, f x = mix lo k s d x) -> forall x, upd f k (s k) x = mix lo (k + 1) s d x.
Proof.
  intros H E x. unfold upd. rewrite E. unfold mix. destruct (Z.eqb_spec x k) as [->|Hx].
  - replace ((lo <=? k) && (k <? k + 1)) with true by lia. reflexivity.
  - replace (x <? k + 1) with (x <? k) by lia. reflexivity.
Qed.
Lemma mix_init lo s d x : d x = mix lo lo s d x.
Proof. unfold mix. replace ((lo <=? x) && (x <? lo)) with false by lia. reflexivity. Qed.

(** [h] is [d] with the vertex records below kv, the vertex infos below ki and the edge
    records below ke replaced by those of [src]. *)
Record copying (src d h : graph) (kv ki ke : Z) : Prop := {
  cp_N : gN h = gN d; cp_M : gM h = gM d; cp_cap : gCap h = gCap d;
  cp_vfirst : forall x, vfirst h x = mix 1 kv (vfirst src) (vfirst d) x;
  cp_vlast : forall x, vlast h x = mix 1 kv (vlast src) (vlast d) x;
  cp_vindex : forall x, vindex h x = mix 1 kv (vindex src) (vindex d) x;
  cp_vflags : forall x, vflags h x = mix 1 kv (vflags src) (vflags d) x;
  cp_ext0 : forall x, ext0 (gX h) x = mix 1 kv (ext0 (gX src)) (ext0 (gX d)) x;
  cp_ext1 : forall x, ext1 (gX h) x = mix 1 kv (ext1 (gX src)) (ext1 (gX d)) x;
  cp_parent : forall x, viParent (gVI h) x = mix 1 ki (viParent (gVI src)) (viParent (gVI d)) x;
  cp_least : forall x, viLeast (gVI h) x = mix 1 ki (viLeast (gVI src)) (viLeast (gVI d)) x;
  cp_low : forall x, viLow (gVI h) x = mix 1 ki (viLow (gVI src)) (viLow (gVI d)) x;
  cp_visited : forall x, viVisited (gVI h) x = mix 1 ki (viVisited (gVI src)) (viVisited (gVI d)) x;
  cp_pertedge : forall x, viPertEdge (gVI h) x = mix 1 ki (viPertEdge (gVI src)) (viPertEdge (gVI d)) x;
  cp_pertroots : forall x, viPertRoots (gVI h) x = mix 1 ki (viPertRoots (gVI src)) (viPertRoots (gVI d)) x;
  cp_fpchild : forall x, viFPChild (gVI h) x = mix 1 ki (viFPChild (gVI src)) (viFPChild (gVI d)) x;
  cp_sdc : forall x, viSDC (gVI h) x = mix 1 ki (viSDC (gVI src)) (viSDC (gVI d)) x;
  cp_fwd : forall x, viFwd (gVI h) x = mix 1 ki (viFwd (gVI src)) (viFwd (gVI d)) x;
  cp_enext : forall x, enext h x = mix 2 ke (enext src) (enext d) x;
  cp_eprev : forall x, eprev h x = mix 2 ke (eprev src) (eprev d) x;
  cp_enbr : forall x, enbr h x = mix 2 ke (enbr src) (enbr d) x;
  cp_eflags : forall x, eflags h x = mix 2 ke (eflags src) (eflags d) x;
  cp_holes : gholes h = gholes d; cp_holesCap : gholesCap h = gholesCap d;
  cp_stack : gstack h = gstack d; cp_stackCap : gstackCap h = gstackCap d;
  cp_iflags : giflags h = giflags d; cp_embed : gembed h = gembed d;
  cp_brlPrev : brlPrev (gX h) = brlPrev (gX d); cp_brlNext : brlNext (gX h) = brlNext (gX d);
  cp_sdlPrev : sdlPrev (gX h) = sdlPrev (gX d); cp_sdlNext : sdlNext (gX h) = sdlNext (gX d);
  cp_IC : exIC (gX h) = exIC (gX d) }.

Lemma copying_init src d : copying src d d 1 1 2.
Proof. constructor; try reflexivity; intros; apply mix_init. Qed.

Ltac copystep H :=
  constructor; gsimp; try (apply mix_step; [lia|apply H]); apply H.

Lemma copy_vrec_ok src d h kv ki ke :
  copying src d h kv ki ke -> gN d = gN src -> 1 <= kv <= 2 * gN src ->
  wp (copy_vrec h src kv) (fun h' => copying src d h' (kv + 1) ki ke).
Proof.
  intros H HN Hk. unfold copy_vrec.
  rewrite guard_true by (pose proof (cp_N _ _ _ _ _ _ H); unfold inV, gp_VertexIndexBound in *; lia).
  cbn [wp]. copystep H.
Qed.
Lemma copy_vinfo_ok src d h kv ki ke :
  copying src d h kv ki ke -> gN d = gN src -> 1 <= ki <= gN src ->
  wp (copy_vinfo h src ki) (fun h' => copying src d h' kv (ki + 1) ke).
Proof.
  intros H HN Hk. unfold copy_vinfo.
  rewrite guard_true by (pose proof (cp_N _ _ _ _ _ _ H); unfold inVI, gp_PrimaryVertexIndexBound in *; lia).
  cbn [wp]. copystep H.
Qed.
Lemma copy_erec_ok src d h kv ki ke :
  copying src d h kv ki ke -> gCap src <= gCap d -> 2 <= ke < 2 + gCap src ->
  wp (copy_erec h src ke) (fun h' => copying src d h' kv ki (ke + 1)).
Proof.
  intros H HN Hk. unfold copy_erec.
  rewrite guard_true by (pose proof (cp_cap _ _ _ _ _ _ H); unfold inE, gp_EdgeIndexBound in *; lia).
  cbn [wp]. copystep H.
Qed.

Lemma lc_copy_ok n d s x : 0 <= x < n -> lc_copy n d s x = s x.
Proof. intros H. unfold lc_copy. replace ((0 <=? x) && (x <? n)) with true by lia. reflexivity. Qed.

Lemma ensure_for_copy dst adjd src :
  rep dst adjd -> Z.of_nat (length (gstack dst)) <= gstackCap dst -> 0 < gCap src -> Z.even (gCap src) = true ->
  exists d, gp_EnsureArcCapacity dst (gCap src) = Ret (d, C_OK) /\ rep d adjd /\ gN d = gN dst /\
    gCap d = Z.max (gCap dst) (gCap src) /\ (d = dst \/ grown dst d (gCap src)).
Proof.
  intros R Hs Hc He. destruct (wp_inv _ _ (ensure_ok dst adjd (gCap src) R Hs)) as ([d r] & E & P & R'). cbn [fst snd] in *.
  unfold ensure_post in P. rewrite He in P. replace (gCap src <=? 0) with false in P by lia. cbn [orb negb] in P.
  destruct (gCap src <=? gCap dst) eqn:Ec.
  - destruct P as [-> ->]. exists dst. split; [auto|]. split; [auto|]. split; [auto|]. split; [lia|auto].
  - destruct P as [-> G]. exists d. split; [auto|]. split; [auto|]. split; [apply G|]. split; [rewrite (gr_cap _ _ _ G); lia|auto].
Qed.

(** Agreement with a well-formed graph on the records it has makes a graph well-formed. *)
Lemma rep_of_copy src c adj :
  rep src adj -> gN c = gN src -> gM c = gM src -> gholes c = gholes src ->
  gCap src <= gCap c -> Z.even (gCap c) = true -> gCap c / 2 <= gholesCap c ->
  (forall v, is_vertex src v -> vfirst c v = vfirst src v /\ vlast c v = vlast src v) ->
  (forall e, 2 <= e < gp_EdgeInUseIndexBound src -> enext c e = enext src e /\ eprev c e = eprev src e /\ enbr c e = enbr src e) ->
  rep c adj.
Proof.
  intros R HN HM HH HC He Hh HV HE. pose proof (rep_storage _ _ R) as S.
  assert (EB : gp_EdgeInUseIndexBound c = gp_EdgeInUseIndexBound src) by (unfold gp_EdgeInUseIndexBound; now rewrite HM, HH).
  assert (NB : forall e, 2 <= e < gp_EdgeInUseIndexBound src -> enbr c e = enbr src e) by (intros; apply HE; auto).
  assert (TW : forall e, 2 <= e < gp_EdgeInUseIndexBound src -> 2 <= twin e < gp_EdgeInUseIndexBound src).
  { intros e H. split; [apply twin_ge_2; lia|]. apply twin_lt_even; [lia|apply even_bound|lia|lia]. }
  constructor.
  - eapply chains_agree; [exact (rep_chains _ _ R)|auto|unfold gp_EdgeIndexBound; lia|exact HV|].
    intros v e H. pose proof (st_used _ _ S _ _ H). destruct (HE e) as (A & B & _); auto.
  - intros v e H. destruct (rep_twins _ _ R _ _ H) as [T1 T2]. pose proof (st_used _ _ S _ _ H).
    rewrite !NB by auto. auto.
  - destruct S. constructor; rewrite ?EB; auto; try congruence.
    + unfold gp_EdgeIndexBound in *. lia.
    + intros h Hx. rewrite HH in Hx. destruct (st_holes h Hx) as (A & B & C). rewrite !NB by auto. auto.
    + intros e H. rewrite NB by auto. rewrite HH. auto.
Qed.

Lemma copy_graph_ok dst adjd src adj :
  rep dst adjd -> Z.of_nat (length (gstack dst)) <= gstackCap dst -> rep src adj -> 0 < gCap src -> gN dst = gN src ->
  exists c, gp_CopyGraph dst src = Ret (c, C_OK) /\ same_content src c /\ gCap c = Z.max (gCap dst) (gCap src) /\
    rep c adj.
Proof.
  intros R Hs Rs Hc HN. pose proof (rep_storage _ _ Rs) as Ss. pose proof (st_N _ _ Ss) as HN1.
  destruct (ensure_for_copy dst adjd src R Hs Hc (st_even _ _ Ss)) as (d & E & Rd & Nd & Cd & _).
  unfold gp_CopyGraph. rewrite HN, Z.eqb_refl. replace (gN src =? 0) with false by lia. cbn [negb orb].
  rewrite E. cbn [bind]. change (C_OK =? C_OK) with true. cbn [negb].
  assert (L1 : wp (for_up (Z.to_nat (gN src)) 1 (fun v dst => dst <- copy_vrec dst src v ;; copy_vinfo dst src v) d)
                 (fun h => copying src d h (gN src + 1) (gN src + 1) 2)).
  { eapply wp_mono; [apply (for_up_inv (fun k h => copying src d h k k 2))|].
    - apply copying_init.
    - intros k h Hk H. apply wp_bind. eapply wp_mono; [apply copy_vrec_ok with (1 := H); lia|].
      intros h1 H1. cbv beta. apply copy_vinfo_ok with (1 := H1); lia.
    - intros h H. cbv beta in H. replace (1 + Z.of_nat (Z.to_nat (gN src))) with (gN src + 1) in H by lia. exact H. }
  destruct (wp_inv _ _ L1) as (h1 & E1 & H1). rewrite E1. cbn [bind]. clear L1.
  assert (L2 : wp (for_up (Z.to_nat (gN src)) (gN src + 1) (fun v dst => copy_vrec dst src v) h1)
                 (fun h => copying src d h (2 * gN src + 1) (gN src + 1) 2)).
  { eapply wp_mono; [apply (for_up_inv (fun k h => copying src d h k (gN src + 1) 2))|].
    - exact H1.
    - intros k h Hk H. apply copy_vrec_ok with (1 := H); lia.
    - intros h H. cbv beta in H. replace (gN src + 1 + Z.of_nat (Z.to_nat (gN src))) with (2 * gN src + 1) in H by lia. exact H. }
  destruct (wp_inv _ _ L2) as (h2 & E2 & H2). rewrite E2. cbn [bind]. clear L2.
  assert (L3 : wp (for_up (Z.to_nat (gp_EdgeIndexBound src - 2)) 2 (fun e dst => copy_erec dst src e) h2)
                 (fun h => copying src d h (2 * gN src + 1) (gN src + 1) (2 + gCap src))).
  { eapply wp_mono; [apply (for_up_inv (fun k h => copying src d h (2 * gN src + 1) (gN src + 1) k))|].
    - exact H2.
    - intros k h Hk H. unfold gp_EdgeIndexBound in Hk. apply copy_erec_ok with (1 := H); lia.
    - intros h H. cbv beta in H. unfold gp_EdgeIndexBound in H.
      replace (2 + Z.of_nat (Z.to_nat (2 + gCap src - 2))) with (2 + gCap src) in H by lia. exact H. }
  destruct (wp_inv _ _ L3) as (h3 & E3 & H3). rewrite E3. cbn [bind]. clear L3.
  eexists. split; [reflexivity|].
  set (c := set_gholesCap _ _).
  assert (Lp : forall d s v, 1 <= v <= gN src -> lc_copy (gp_PrimaryVertexIndexBound src) d s v = s v).
  { intros. apply lc_copy_ok. unfold gp_PrimaryVertexIndexBound. lia. }
  split; [|split].
  - constructor; unfold c; gsimp; try reflexivity.
    + rewrite (cp_N _ _ _ _ _ _ H3). lia.
    + intros v Hv. unfold is_vertex in Hv.
      rewrite (cp_vfirst _ _ _ _ _ _ H3), (cp_vlast _ _ _ _ _ _ H3), (cp_vindex _ _ _ _ _ _ H3), (cp_vflags _ _ _ _ _ _ H3),
        (cp_ext0 _ _ _ _ _ _ H3), (cp_ext1 _ _ _ _ _ _ H3).
      unfold mix. replace ((1 <=? v) && (v <? 2 * gN src + 1)) with true by lia. repeat split.
    + intros v Hv.
      rewrite (cp_parent _ _ _ _ _ _ H3), (cp_least _ _ _ _ _ _ H3), (cp_low _ _ _ _ _ _ H3), (cp_visited _ _ _ _ _ _ H3),
        (cp_pertedge _ _ _ _ _ _ H3), (cp_pertroots _ _ _ _ _ _ H3), (cp_fpchild _ _ _ _ _ _ H3), (cp_sdc _ _ _ _ _ _ H3), (cp_fwd _ _ _ _ _ _ H3).
      unfold mix. replace ((1 <=? v) && (v <? gN src + 1)) with true by lia. repeat split.
    + intros v Hv. rewrite !Lp by lia. repeat split.
    + intros e He. unfold gp_EdgeIndexBound in He.
      rewrite (cp_enext _ _ _ _ _ _ H3), (cp_eprev _ _ _ _ _ _ H3), (cp_enbr _ _ _ _ _ _ H3), (cp_eflags _ _ _ _ _ _ H3).
      unfold mix. replace ((2 <=? e) && (e <? 2 + gCap src)) with true by lia. repeat split.
  - unfold c. gsimp. rewrite (cp_cap _ _ _ _ _ _ H3). exact Cd.
  - pose proof (st_cap _ _ Ss) as B0. unfold gp_EdgeIndexBound in B0.
    apply (rep_of_copy src); unfold c; gsimp; auto.
    + rewrite (cp_N _ _ _ _ _ _ H3). lia.
    + rewrite (cp_cap _ _ _ _ _ _ H3). lia.
    + rewrite (cp_cap _ _ _ _ _ _ H3). apply (st_even _ _ (rep_storage _ _ Rd)).
    + rewrite (cp_cap _ _ _ _ _ _ H3), (cp_holesCap _ _ _ _ _ _ H3).
      pose proof (st_holescap _ _ (rep_storage _ _ Rd)) as HH. pose proof (rep_holes_len _ _ Rs) as HL.
      pose proof (st_M _ _ Ss) as HM.
      assert (gCap src / 2 <= gCap d / 2) by (apply Z.div_le_mono; lia).
      unfold sp_copy_cap. replace (gholesCap d <? _) with false by lia. exact HH.
    + intros v Hv. unfold is_vertex in Hv.
      rewrite (cp_vfirst _ _ _ _ _ _ H3), (cp_vlast _ _ _ _ _ _ H3).
      unfold mix. replace ((1 <=? v) && (v <? 2 * gN src + 1)) with true by lia. auto.
    + intros e He.
      rewrite (cp_enext _ _ _ _ _ _ H3), (cp_eprev _ _ _ _ _ _ H3), (cp_enbr _ _ _ _ _ _ H3).
      unfold mix. replace ((2 <=? e) && (e <? 2 + gCap src)) with true by lia. auto.
Qed.

(** ** gp_CopyAdjacencyLists *)
Record lists_copying (src d h : graph) (kv ke : Z) : Prop := {
  lc_N : gN h = gN d; lc_M : gM h = gM d; lc_cap : gCap h = gCap d;
  lc_vfirst : forall x, vfirst h x = mix 1 kv (vfirst src) (vfirst d) x;
  lc_vlast : forall x, vlast h x = mix 1 kv (vlast src) (vlast d) x;
  lc_enext : forall x, enext h x = mix 2 ke (enext src) (enext d) x;
  lc_eprev : forall x, eprev h x = mix 2 ke (eprev src) (eprev d) x;
  lc_enbr : forall x, enbr h x = mix 2 ke (enbr src) (enbr d) x;
  lc_vindex : vindex h = vindex d; lc_vflags : vflags h = vflags d; lc_eflags : eflags h = eflags d;
  lc_holes : gholes h = gholes d; lc_holesCap : gholesCap h = gholesCap d;
  lc_stack : gstack h = gstack d; lc_stackCap : gstackCap h = gstackCap d;
  lc_iflags : giflags h = giflags d; lc_embed : gembed h = gembed d;
  lc_VI : gVI h = gVI d; lc_X : gX h = gX d }.
Lemma lists_copying_init src d : lists_copying src d d 1 2.
Proof. constructor; try reflexivity; intros; apply mix_init. Qed.

Lemma copy_lists_ok dst adjd src adj :
  rep dst adjd -> Z.of_nat (length (gstack dst)) <= gstackCap dst -> rep src adj -> 0 < gCap src -> gN dst = gN src ->
  exists d c, gp_CopyAdjacencyLists dst src = Ret (c, C_OK) /\
    (d = dst \/ grown dst d (gCap src)) /\ gCap d = Z.max (gCap dst) (gCap src) /\ lists_copied src d c /\
    (* with the virtual vertices unused on both sides the result is well-formed *)
    ((forall v, gN src < v -> adj v = [] /\ adjd v = []) -> rep c adj).
Proof.
  intros R Hs Rs Hc HN. pose proof (rep_storage _ _ Rs) as Ss. pose proof (st_N _ _ Ss) as HN1.
  destruct (ensure_for_copy dst adjd src R Hs Hc (st_even _ _ Ss)) as (d & E & Rd & Nd & Cd & Gd).
  pose proof (st_cap _ _ Ss) as B0. unfold gp_EdgeIndexBound in B0.
  assert (B1 : 2 <= gp_EdgeInUseIndexBound src) by (unfold gp_EdgeInUseIndexBound; pose proof (st_M _ _ Ss); lia).
  unfold gp_CopyAdjacencyLists. rewrite HN, Z.eqb_refl. replace (gN src =? 0) with false by lia. cbn [negb orb].
  rewrite E. cbn [bind]. change (C_OK =? C_OK) with true. cbn [negb].
  match goal with |- context [for_up (Z.to_nat (gN src)) 1 ?b d] => set (bv := b) end.
  assert (L1 : wp (for_up (Z.to_nat (gN src)) 1 bv d) (fun h => lists_copying src d h (gN src + 1) 2)).
  { eapply wp_mono; [apply (for_up_inv (fun k h => lists_copying src d h k 2))|].
    - apply lists_copying_init.
    - intros k h Hk H. unfold bv. pose proof (lc_N _ _ _ _ _ H) as HNh.
      rewrite get_first, bind_ret by (apply inV_true; unfold is_vertex; lia).
      rewrite set_first, bind_ret by (apply inV_true; unfold is_vertex; lia).
      rewrite get_last, bind_ret by (apply inV_true; unfold is_vertex; lia).
      rewrite set_last by (apply inV_true; unfold is_vertex; gsimp; lia).
      cbn [wp]. constructor; gsimp; try (apply mix_step; [lia|apply H]); apply H.
    - intros h H. cbv beta in H. replace (1 + Z.of_nat (Z.to_nat (gN src))) with (gN src + 1) in H by lia. exact H. }
  destruct (wp_inv _ _ L1) as (h1 & E1 & H1). rewrite E1. cbn [bind]. clear L1.
  match goal with |- context [for_up (Z.to_nat (gp_EdgeInUseIndexBound src - 2)) 2 ?b h1] => set (be := b) end.
  assert (L2 : wp (for_up (Z.to_nat (gp_EdgeInUseIndexBound src - 2)) 2 be h1)
                 (fun h => lists_copying src d h (gN src + 1) (gp_EdgeInUseIndexBound src))).
  { eapply wp_mono; [apply (for_up_inv (fun k h => lists_copying src d h (gN src + 1) k))|].
    - exact H1.
    - intros k h Hk H. unfold be. pose proof (lc_cap _ _ _ _ _ H) as HCh.
      rewrite get_nbr, bind_ret by (apply inE_true; unfold gp_EdgeIndexBound; lia).
      rewrite set_nbr, bind_ret by (apply inE_true; unfold gp_EdgeIndexBound; lia).
      rewrite get_next, bind_ret by (apply inE_true; unfold gp_EdgeIndexBound; lia).
      rewrite set_next, bind_ret by (apply inE_true; unfold gp_EdgeIndexBound; gsimp; lia).
      rewrite get_prev, bind_ret by (apply inE_true; unfold gp_EdgeIndexBound; lia).
      rewrite set_prev by (apply inE_true; unfold gp_EdgeIndexBound; gsimp; lia).
      cbn [wp]. constructor; gsimp; try (apply mix_step; [lia|apply H]); apply H.
    - intros h H. cbv beta in H.
      replace (2 + Z.of_nat (Z.to_nat (gp_EdgeInUseIndexBound src - 2))) with (gp_EdgeInUseIndexBound src) in H by lia. exact H. }
  destruct (wp_inv _ _ L2) as (h2 & E2 & H2). rewrite E2. cbn [bind]. clear L2.
  eexists d, _. split; [reflexivity|]. split; [exact Gd|]. split; [exact Cd|].
  set (c := set_gholesCap _ _).
  assert (LD : lists_copied src d c).
  { constructor; unfold c; gsimp; try apply H2; try reflexivity.
    - intros v Hv. rewrite (lc_vfirst _ _ _ _ _ H2), (lc_vlast _ _ _ _ _ H2). unfold mix.
      replace ((1 <=? v) && (v <? gN src + 1)) with true by lia. auto.
    - intros v Hv. rewrite (lc_vfirst _ _ _ _ _ H2), (lc_vlast _ _ _ _ _ H2). unfold mix.
      replace ((1 <=? v) && (v <? gN src + 1)) with false by lia. auto.
    - intros e He. rewrite (lc_enext _ _ _ _ _ H2), (lc_eprev _ _ _ _ _ H2), (lc_enbr _ _ _ _ _ H2). unfold mix.
      replace ((2 <=? e) && (e <? gp_EdgeInUseIndexBound src)) with true by lia. auto.
    - intros e He. rewrite (lc_enext _ _ _ _ _ H2), (lc_eprev _ _ _ _ _ H2), (lc_enbr _ _ _ _ _ H2). unfold mix.
      replace ((2 <=? e) && (e <? gp_EdgeInUseIndexBound src)) with false by lia. auto. }
  split; [exact LD|]. intros Hvirt.
  apply (rep_of_copy src); try apply LD; auto.
  - rewrite (ld_N _ _ _ LD). lia.
  - rewrite (ld_cap _ _ _ LD). lia.
  - rewrite (ld_cap _ _ _ LD). apply (st_even _ _ (rep_storage _ _ Rd)).
  - rewrite (ld_cap _ _ _ LD). unfold c; gsimp. rewrite (lc_holesCap _ _ _ _ _ H2).
    pose proof (st_holescap _ _ (rep_storage _ _ Rd)) as HH. pose proof (rep_holes_len _ _ Rs) as HL.
    pose proof (st_M _ _ Ss) as HM.
    assert (gCap src / 2 <= gCap d / 2) by (apply Z.div_le_mono; lia).
    unfold sp_copy_cap. replace (gholesCap d <? _) with false by lia. exact HH.
  - intros v Hv. destruct (Z.le_gt_cases v (gN src)) as [Hl|Hl].
    + apply (ld_vert _ _ _ LD). unfold is_vertex in Hv. lia.
    + destruct (ld_vert_other _ _ _ LD v) as [A B]; [lia|]. rewrite A, B.
      destruct (Hvirt v Hl) as [V1 V2].
      assert (Hvd : is_vertex d v) by (unfold is_vertex in *; lia).
      rewrite (ch_first _ _ (rep_chains _ _ Rd) v Hvd), (ch_last _ _ (rep_chains _ _ Rd) v Hvd), V2.
      rewrite (ch_first _ _ (rep_chains _ _ Rs) v Hv), (ch_last _ _ (rep_chains _ _ Rs) v Hv), V1. auto.
Qed.

(** ** gp_DupGraph *)
Lemma new_graph_ok N : 1 <= N -> exists g, gp_InitGraph gp_New N = (g, C_OK) /\ rep g no_adj /\ gN g = N /\
  gCap g = 6 * N /\ Z.of_nat (length (gstack g)) <= gstackCap g.
Proof.
  intros HN. destruct (wp_inv _ _ (fresh_ok 0 N HN)) as (g & E & R & H1 & _ & H2 & H3).
  unfold fresh_graph in E. cbn in E. exists (fst (gp_InitGraph gp_New N)).
  assert (E2 : fst (gp_InitGraph gp_New N) = g) by congruence.
  split.
  - unfold gp_InitGraph. replace (N <=? 0) with false by lia. cbn [gN gp_New Z.eqb negb]. unfold _InitGraph. reflexivity.
  - rewrite E2. split; [auto|]. split; [auto|]. split; [auto|]. rewrite H2. cbn [length].
    assert (RR : reach g) by (apply (reach_init 0 N); auto; unfold fresh_graph; cbn; congruence).
    destruct (reach_inv _ RR) as (_ & _ & _ & X1 & X2). lia.
Qed.

Lemma dup_graph_ok src adj :
  rep src adj -> 0 < gCap src ->
  exists c, gp_DupGraph src = Ret (Some c) /\ same_content src c /\ rep c adj /\ gCap c = Z.max (6 * gN src) (gCap src).
Proof.
  intros R Hc. pose proof (st_N _ _ (rep_storage _ _ R)) as HN.
  destruct (new_graph_ok (gN src) HN) as (d & E & Rd & Nd & Cd & Sd).
  unfold gp_DupGraph. rewrite E. change (C_OK =? C_OK) with true. cbn [negb].
  destruct (copy_graph_ok d no_adj src adj Rd Sd R Hc Nd) as (c & Ec & S & Cc & Rc).
  rewrite Ec. cbn [bind]. change (C_OK =? C_OK) with true. cbn [negb].
  exists c. split; [auto|]. split; [auto|]. split; [auto|]. rewrite Cc, Cd. reflexivity.
Qed.
