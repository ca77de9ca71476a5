(** * PlV2: what merging two components and embedding an edge do to the external face and to the
    faces at the root (see PlV). *)
From Coq Require Import ZifyBool Permutation.
From Verif Require Import Base BaseP GraphRec GraphM GraphSpec GSimp LinkP GraphP GraphP2 ListM ListSpec ListP DFSM DFSSpec TestSpec TestP TestP3 EmbM EmbSpec EmbP FaceP GeoP GeoP2 EmbInv EmbStep EmbTree EmbWalk PlV.

(** Both changes exchange the successors of two corners. *)
Definition sw (p q p' q' x : Z) : Z := if x =? p then q' else if x =? q then p' else x.
Lemma fchain_sw f f' (h : Z -> Z) l : forall q, fchain f l q -> (forall e, In e l -> f' e = h (f e)) -> (forall x, In x (tl l) -> h x = x) -> fchain f' l (h q).
Proof.
  induction l as [|x l IH]; intros q C Hf Hh; [exact I|]. destruct C as [C1 C2]. cbn [tl] in Hh. cbn [fchain]. split.
  - rewrite Hf by (now left). rewrite C1. destruct l as [|y l]; [reflexivity|]. cbn [hd]. apply Hh. now left.
  - apply IH; auto; [intros; apply Hf; now right|]. intros y Hy. apply Hh. destruct l; [destruct Hy|now right].
Qed.
Lemma fclosed_sw f f' (h : Z -> Z) l : fclosed f l -> (forall e, In e l -> f' e = h (f e)) -> (forall x, In x l -> h x = x) -> fclosed f' l.
Proof.
  intros [Ne C] Hf Hh. split; [auto|]. rewrite <- (Hh (hd NIL l)) by (now apply hd_in). apply (fchain_sw f); auto. intros x Hx. apply Hh. destruct l; [destruct Hx|now right].
Qed.
Lemma cnext_hd l t : NoDup l -> In t l -> cnext l t = hd NIL l <-> t = last l NIL.
Proof.
  intros Nd Ht. split; [intros E; now apply cnext_last_iff|]. intros ->. destruct (list_snoc l) as [->|(m & y & ->)]; [destruct Ht|]. rewrite last_snoc. rewrite cnext_last by auto. destruct m; reflexivity.
Qed.

Section V2.
Variables (g0 : graph) (kids : Z -> list Z).
Local Notation N := (gN g0).
Local Notation p := (viParent (gVI g0)).
Local Notation prim := (prim (gN g0)).
Local Notation isroot := (isroot (gN g0)).
Local Notation geo := (geo (gN g0) (viParent (gVI g0))).
Local Notation geob := (geob (gN g0) (viParent (gVI g0))).
Local Notation vsof := (vsof (gN g0)).
Local Notation inc := (inc (gN g0)).
Local Notation oface := (oface (gN g0)).
Local Notation iface := (iface (gN g0)).
Local Notation ov := (ov (gN g0)).

Lemma stp_hd s x y e : geob s -> In e (adj s x) -> adj s y <> [] -> stp s e = hd NIL (rot s y) <-> nb s e = y /\ twin e = last (rot s y) NIL.
Proof.
  intros G He Ny. destruct (arc_st _ _ _ _ _ G He) as (H1 & H2 & H3). assert (K : NoDup (rot s (nb s e))) by (apply rot_nodup, (g_nodup _ _ _ G)). apply in_rot in H3. split.
  - intros E. assert (In (stp s e) (adj s y)) as I by (rewrite E; apply in_rot, hd_in; now apply rot_ne). pose proof (g_disj _ _ _ G _ _ _ H1 I) as <-. split; [auto|]. apply cnext_hd; auto.
  - intros [<- E]. unfold stp, fstep. apply cnext_hd; auto.
Qed.
Lemma last_app1 (a b : list Z) : b <> [] -> last (a ++ b) NIL = last b NIL.
Proof. intros. now apply last_app_ne. Qed.

Section Merge.
Variables (a b : est) (R C' Z0 c : Z) (xs : list Z).
Local Notation s := (eV a).
Local Notation t := (eV b).
Hypothesis G : geo R xs s.
Hypothesis M : merge_rel g0 kids a b R C' Z0.
Hypotheses (HR : isroot R) (HC : isroot C') (NRC : C' <> R) (NR : adj s R <> []) (NC : adj s C' <> []) (PZ : prim Z0) (BZ : B s Z0 = C') (NZ : adj s Z0 <> []).
Let G0 : geob s := g_base _ _ _ _ _ G.
Let ZR : Z0 <> R. Proof. clear - PZ HR. unfold GeoP.prim, GeoP.isroot in *. lia. Qed.
Let ZC : Z0 <> C'. Proof. clear - PZ HC. unfold GeoP.prim, GeoP.isroot in *. lia. Qed.
Lemma mg_src e : src t e = if inb e (adj s R) then Z0 else src s e.
Proof. unfold src. rewrite (mr_nb _ _ _ _ _ _ _ M). now rewrite twin2. Qed.
Lemma mg_src2 e : In (src s e) (vsof s C') -> In e (adj s (src s e)) -> src t e = src s e.
Proof.
  intros Hv He. rewrite mg_src. destruct (inb_spec e (adj s R)) as [I|]; [|auto]. exfalso. rewrite (g_disj _ _ _ G0 _ _ _ He I) in Hv. apply NRC. apply (vsof_inj N s C' R R); auto. now left.
Qed.
Lemma mg_rot x : x <> Z0 -> x <> R -> rot t x = rot s x.
Proof. intros H1 H2. unfold rot. now rewrite (mr_o _ _ _ _ _ _ _ M), (mr_adj _ _ _ _ _ _ _ M). Qed.
Lemma mg_nd : NoDup (rot s Z0 ++ rot s R).
Proof. apply NoDup_app_intro; try apply rot_nodup, (g_nodup _ _ _ G0). intros e H1 H2. apply in_rot in H1, H2. apply ZR. apply (g_disj _ _ _ G0 _ _ _ H1 H2). Qed.
Lemma mg_stp e x : In e (adj s x) -> stp t e = sw (hd NIL (rot s Z0)) (hd NIL (rot s R)) (hd NIL (rot s Z0)) (hd NIL (rot s R)) (stp s e).
Proof.
  intros He. destruct (arc_st _ _ _ _ _ G0 He) as (H1 & H2 & H3). unfold sw.
  pose proof (stp_hd s x Z0 e G0 He NZ) as K1. pose proof (stp_hd s x R e G0 He NR) as K2. pose proof (mg_nd) as Nd.
  assert (Nz : rot s Z0 <> []) by (now apply rot_ne). assert (Nr : rot s R <> []) by (now apply rot_ne).
  unfold stp at 1, fstep. rewrite (mr_nb _ _ _ _ _ _ _ M). destruct (inb_spec (twin e) (adj s R)) as [I|I].
  - pose proof (g_disj _ _ _ G0 _ _ _ H3 I) as E. rewrite (mr_rot _ _ _ _ _ _ _ M). apply in_rot in I.
    destruct (Z.eqb_spec (stp s e) (hd NIL (rot s Z0))) as [Q|Q]; [apply K1 in Q; destruct Q; congruence|].
    rewrite <- (cnext_turn (rot s Z0) (rot s R)) by (auto; apply in_app_iff; auto). rewrite cnext_app_l by (auto; apply (Permutation_NoDup (Permutation_app_comm _ _) Nd)).
    destruct (Z.eqb_spec (stp s e) (hd NIL (rot s R))) as [Q'|Q'].
    + apply K2 in Q'. destruct Q' as [_ ->]. now rewrite Z.eqb_refl.
    + destruct (Z.eqb_spec (twin e) (last (rot s R) NIL)) as [Q2|Q2]; [elim Q'; now apply K2|]. unfold stp, fstep. now rewrite E.
  - assert (E : nb s e <> R) by (intros E; rewrite E in H3; contradiction). destruct (Z.eq_dec (nb s e) Z0) as [E'|E'].
    + rewrite E', (mr_rot _ _ _ _ _ _ _ M). rewrite E' in H3. apply in_rot in H3. rewrite cnext_app_l by auto.
      destruct (Z.eqb_spec (stp s e) (hd NIL (rot s R))) as [Q|Q]; [apply K2 in Q; destruct Q; congruence|].
      destruct (Z.eqb_spec (stp s e) (hd NIL (rot s Z0))) as [Q'|Q'].
      * apply K1 in Q'. destruct Q' as [_ ->]. now rewrite Z.eqb_refl.
      * destruct (Z.eqb_spec (twin e) (last (rot s Z0) NIL)) as [Q2|Q2]; [elim Q'; now apply K1|]. unfold stp, fstep. now rewrite E'.
    + rewrite mg_rot by auto. change (cnext (rot s (nb s e)) (twin e)) with (stp s e).
      destruct (Z.eqb_spec (stp s e) (hd NIL (rot s Z0))) as [Q|Q]; [apply K1 in Q; destruct Q; congruence|].
      destruct (Z.eqb_spec (stp s e) (hd NIL (rot s R))) as [Q'|Q']; [apply K2 in Q'; destruct Q'; congruence|reflexivity].
Qed.
Lemma mg_vs x : In x (vsof s C') -> In x (vsof t C').
Proof. rewrite !in_vsof. intros [->|[P1 P2]]; [auto|]. right. split; [auto|]. rewrite (mr_B _ _ _ _ _ _ _ M), P2. destruct (C' =? R); reflexivity. Qed.
Lemma mg_vsR x : In x (vsof s R) -> x <> R -> In x (vsof t C').
Proof. rewrite !in_vsof. intros [->|[P1 P2]]; [congruence|]. intros _. right. split; [auto|]. now rewrite (mr_B _ _ _ _ _ _ _ M), P2, Z.eqb_refl. Qed.
Lemma mg_adj x e : In e (adj s x) -> In e (adj t (src t e)).
Proof.
  intros He. rewrite mg_src. destruct (inb_spec e (adj s R)) as [I|I].
  - apply (mr_adjZ _ _ _ _ _ _ _ M). auto.
  - rewrite (arc_src _ _ _ _ _ G0 He). destruct (Z.eq_dec x Z0) as [->|]; [apply (mr_adjZ _ _ _ _ _ _ _ M); auto|]. rewrite (mr_adj _ _ _ _ _ _ _ M); auto. intros ->. contradiction.
Qed.
Lemma mg_inc1 e : inc s C' e -> inc t C' e.
Proof. intros [I1 I2]. split; [|eapply mg_adj; eauto]. rewrite mg_src2 by auto. now apply mg_vs. Qed.
Lemma mg_inc2 e : inc s R e -> inc t C' e.
Proof.
  intros [I1 I2]. split; [|eapply mg_adj; eauto]. rewrite mg_src. destruct (inb_spec e (adj s R)) as [I|I]; [apply mg_vs, in_vsof; auto|]. apply mg_vsR; [auto|]. intros E. now rewrite E in I2.
Qed.
Lemma mg_ov pre1 suf1 pre2 suf2 : oface s C' (pre1 ++ suf1) -> pre1 <> [] -> suf1 <> [] -> src s (hd NIL suf1) = Z0 -> ov s R pre2 suf2 ->
  ov t C' (pre1 ++ pre2) (suf2 ++ suf1) /\ map (src t) pre1 = map (src s) pre1 /\ map (src t) suf1 = map (src s) suf1 /\ map (src t) suf2 = map (src s) suf2 /\
  map (src t) pre2 = Z0 :: tl (map (src s) pre2).
Proof.
  intros O N1 N2 E2 V. pose proof (oface_nd _ _ _ _ _ G0 O) as Nd. pose proof (of_hd _ _ _ _ O) as Oh. pose proof (of_cl _ _ _ _ O) as [_ C1]. pose proof (ov_cl _ _ _ _ _ V) as [_ C2].
  assert (N3 : pre2 <> []) by apply V. pose proof (ov_ne _ _ _ _ _ V) as N4. assert (H2 : hd NIL pre2 = hd NIL (rot s R)) by apply V.
  assert (H1 : hd NIL suf1 = hd NIL (rot s Z0)). { pose proof (of_st _ _ _ _ O (hd NIL suf1) ltac:(apply in_app_iff; right; now apply hd_in)) as K. now rewrite E2 in K. }
  rewrite (hd_app pre1) in Oh by auto.
  assert (S1 : forall e, In e (pre1 ++ suf1) -> src t e = src s e) by (intros e He; destruct (of_in _ _ _ _ O e He); now apply mg_src2).
  assert (IR : In (hd NIL (rot s R)) (adj s R)) by (apply in_rot, hd_in; now apply rot_ne). assert (IZ : In (hd NIL (rot s Z0)) (adj s Z0)) by (apply in_rot, hd_in; now apply rot_ne).
  assert (IC : In (hd NIL (rot s C')) (adj s C')) by (apply in_rot, hd_in; now apply rot_ne).
  assert (D1 : forall e, In e (pre1 ++ suf1) -> e <> hd NIL (rot s R)).
  { intros e He Ee. destruct (of_in _ _ _ _ O e He) as [I1 I2]. rewrite Ee in I1, I2. rewrite (arc_src _ _ _ _ _ G0 IR) in I1. apply NRC. apply (vsof_inj N s C' R R); auto. now left. }
  assert (D2 : forall e, In e (pre2 ++ suf2) -> e <> hd NIL (rot s Z0)).
  { intros e He Ee. destruct (ov_in _ _ _ _ _ V e He) as [I1 I2]. rewrite Ee in I1, I2. rewrite (arc_src _ _ _ _ _ G0 IZ) in I1. apply in_vsof in I1. destruct I1 as [|[_ I1]]; [congruence|]. apply NRC. congruence. }
  assert (D3 : forall e, In e (pre2 ++ suf2) -> In e (adj s R) -> e = hd NIL pre2).
  { intros e He Ia. pose proof (ov_R _ _ _ _ _ V) as Nv. destruct pre2 as [|q pre2]; [congruence|]. cbn [app hd tl] in *. destruct He as [|He]; [auto|]. elim Nv. apply in_map_iff. exists e. split; [apply (arc_src _ _ _ _ _ G0 Ia)|auto]. }
  assert (D4 : forall e, In e (tl pre2 ++ suf2) -> src t e = src s e).
  { intros e He. rewrite mg_src. destruct (inb_spec e (adj s R)) as [I|]; [|auto]. exfalso. apply (ov_R _ _ _ _ _ V). apply in_map_iff. exists e. split; [apply (arc_src _ _ _ _ _ G0 I)|auto]. }
  assert (M1 : map (src t) pre1 = map (src s) pre1) by (apply map_ext_in; intros; apply S1, in_app_iff; auto).
  assert (M2 : map (src t) suf1 = map (src s) suf1) by (apply map_ext_in; intros; apply S1, in_app_iff; auto).
  assert (M3 : map (src t) suf2 = map (src s) suf2) by (apply map_ext_in; intros; apply D4, in_app_iff; auto).
  assert (M4 : map (src t) pre2 = Z0 :: tl (map (src s) pre2)).
  { destruct pre2 as [|q pre2]; [congruence|]. cbn [map tl hd app] in *. f_equal; [|apply map_ext_in; intros; apply D4, in_app_iff; auto]. rewrite mg_src. rewrite H2. now destruct (inb_spec (hd NIL (rot s R)) (adj s R)). }
  assert (Disj : forall e e', In e (pre1 ++ suf1) -> In e' (pre2 ++ suf2) -> src s e <> src s e').
  { intros e e' He He' Ee. destruct (of_in _ _ _ _ O e He) as [I1 _]. destruct (ov_in _ _ _ _ _ V e' He') as [I2 _]. rewrite Ee in I1. apply NRC. apply (vsof_inj N s C' R (src s e')); auto. }
  assert (Perm : Permutation ((pre1 ++ pre2) ++ suf2 ++ suf1) ((pre1 ++ suf1) ++ pre2 ++ suf2)).
  { rewrite <- !app_assoc. apply Permutation_app_head. rewrite (app_assoc pre2). apply Permutation_app_comm. }
  split; [|auto]. constructor.
  - set (h := sw (hd NIL (rot s Z0)) (hd NIL (rot s R)) (hd NIL (rot s Z0)) (hd NIL (rot s R))).
    assert (Fh : forall e, In e ((pre1 ++ suf1) ++ pre2 ++ suf2) -> stp t e = h (stp s e)).
    { intros e He. apply in_app_iff in He. destruct He as [He|He]; [eapply mg_stp, (of_in _ _ _ _ O e He)|eapply mg_stp, (ov_in _ _ _ _ _ V e He)]. }
    split; [intros Q; apply app_eq_nil in Q; destruct Q as [Q _]; apply app_eq_nil in Q; tauto|].
    assert (Hp : hd NIL ((pre1 ++ pre2) ++ suf2 ++ suf1) = hd NIL pre1) by (destruct pre1; [congruence|reflexivity]). rewrite Hp. rewrite (hd_app pre1) in C1 by auto. rewrite (hd_app pre2) in C2 by auto.
    apply fchain_app in C1. destruct C1 as [C1 C1']. pose proof (of_nd _ _ _ _ O) as ND1. pose proof (ov_nd _ _ _ _ _ V) as ND2.
    assert (Hh1 : h (hd (hd NIL pre1) suf1) = hd NIL pre2). { unfold h, sw. destruct suf1 as [|q suf1]; [congruence|]. cbn [hd] in H1 |- *. now rewrite H1, Z.eqb_refl. }
    assert (Hh2 : h (hd NIL pre1) = hd NIL pre1).
    { unfold h, sw. rewrite Oh. rewrite !eqb_false_neq; [auto| |]; intros Q; [rewrite Q in IC; apply NRC, (g_disj _ _ _ G0 _ _ _ IC IR)|rewrite Q in IC; apply ZC; symmetry; apply (g_disj _ _ _ G0 _ _ _ IC IZ)]. }
    assert (Hh3 : h (hd NIL pre2) = hd NIL suf1).
    { unfold h, sw. rewrite H2, Z.eqb_refl. rewrite eqb_false_neq by (apply not_eq_sym; intros Q; apply ZR; apply (g_disj _ _ _ G0 _ _ _ IZ); now rewrite Q). auto. }
    assert (Hi1 : forall x, In x (pre1 ++ suf1) -> x <> hd NIL suf1 -> h x = x).
    { intros x Hx Nx. unfold h, sw. rewrite !eqb_false_neq; [auto|apply D1, Hx|congruence]. }
    assert (Hi2 : forall x, In x (pre2 ++ suf2) -> x <> hd NIL pre2 -> h x = x).
    { intros x Hx Nx. unfold h, sw. rewrite !eqb_false_neq; [auto|congruence|apply D2, Hx]. }
    rewrite <- app_assoc, (app_assoc pre2). apply fchain_app. split; [|apply fchain_app; split].
    + rewrite hd_app by (intros Q; apply app_eq_nil in Q; tauto). rewrite hd_app by auto. replace (hd (hd NIL pre1) pre2) with (hd NIL pre2) by (destruct pre2; [congruence|reflexivity]). rewrite <- Hh1.
      apply (fchain_sw (stp s)); [auto|intros; apply Fh; rewrite !in_app_iff; auto|]. intros x Hx. assert (Ix : In x pre1) by (destruct pre1; [destruct Hx|now right]). apply Hi1; [apply in_app_iff; auto|].
      intros ->. apply (NoDup_app_disj _ _ _ ND1 Ix). now apply hd_in.
    + replace (hd (hd NIL pre1) suf1) with (hd NIL suf1) by (destruct suf1; [congruence|reflexivity]). rewrite <- Hh3.
      apply (fchain_sw (stp s)); [auto|intros; apply Fh; rewrite !in_app_iff in *; tauto|]. intros x Hx. destruct pre2 as [|q pre2]; [congruence|]. cbn [app tl hd] in *. apply Hi2; [now right|]. intros ->. apply NoDup_cons_iff in ND2. tauto.
    + rewrite <- Hh2 at 1. apply (fchain_sw (stp s)); [auto|intros; apply Fh; rewrite !in_app_iff; auto|]. intros x Hx. destruct suf1 as [|q suf1]; [congruence|]. cbn [tl hd] in *. apply Hi1; [apply in_app_iff; right; now right|].
      intros ->. apply NoDup_app_r in ND1. apply NoDup_cons_iff in ND1. tauto.
  - apply (Permutation_NoDup (Permutation_sym Perm)). apply NoDup_app_intro; [apply O|apply V|]. intros e He He'. apply (Disj e e He He'). reflexivity.
  - split; [intros Q; apply app_eq_nil in Q; tauto|]. rewrite hd_app by auto. rewrite mg_rot by auto. exact Oh.
  - intros Q. apply app_eq_nil in Q. tauto.
  - rewrite (hd_app suf2) by auto. rewrite map_app, M1, M4. rewrite map_app in Nd. rewrite D4 by (apply in_app_iff; right; now apply hd_in). pose proof (ov_np _ _ _ _ _ V) as NP. apply NoDup_cons_iff in NP. destruct NP as [NP0 NP]. constructor.
    { rewrite in_app_iff. cbn [In]. intros [Q|[Q|Q]].
      - apply in_map_iff in Q. destruct Q as (e & Q1 & Q2). apply (Disj e (hd NIL suf2)); [apply in_app_iff; auto|apply in_app_iff; right; now apply hd_in|auto].
      - apply (Disj (hd NIL suf1) (hd NIL suf2)); [apply in_app_iff; right; now apply hd_in|apply in_app_iff; right; now apply hd_in|congruence].
      - apply NP0. destruct (map (src s) pre2); [destruct Q|now right]. }
    apply NoDup_app_intro; [now apply NoDup_app_l in Nd| |].
    + clear NP0. rename NP into Np0. pose proof Np0 as Np. destruct pre2 as [|q pre2]; [congruence|]. cbn [map tl] in *. apply NoDup_cons_iff in Np. constructor; [|tauto]. intros Q. apply in_map_iff in Q. destruct Q as (e & Q1 & Q2).
      apply (Disj (hd NIL suf1) e); [apply in_app_iff; right; now apply hd_in|apply in_app_iff; left; now right|congruence].
    + intros x H3 [<-|H4].
      * apply (NoDup_app_disj _ _ _ Nd H3). rewrite <- E2. apply in_map. now apply hd_in.
      * apply in_map_iff in H3. destruct H3 as (e & Q1 & Q2). destruct pre2 as [|q pre2]; [congruence|]. cbn [map tl] in H4. apply in_map_iff in H4. destruct H4 as (e' & Q3 & Q4). apply (Disj e e'); [apply in_app_iff; auto|apply in_app_iff; left; now right|congruence].
  - intros e He. apply (Permutation_in _ Perm) in He. apply in_app_iff in He. destruct He as [He|He]; [apply mg_inc1, O, He|apply mg_inc2, V, He].
  - intros e He. apply in_app_iff in He. destruct He as [He|He].
    + rewrite D4 by (apply in_app_iff; auto). rewrite (ov_st _ _ _ _ _ V e He) at 1. rewrite mg_rot; [auto| |].
      * intros Q. apply (Disj (hd NIL suf1) e); [apply in_app_iff; right; now apply hd_in|apply in_app_iff; auto|congruence].
      * intros Q. apply (ov_R _ _ _ _ _ V). apply in_map_iff. exists e. split; [auto|apply in_app_iff; auto].
    + rewrite S1 by (apply in_app_iff; auto). rewrite (of_st _ _ _ _ O e) at 1 by (apply in_app_iff; auto). destruct (Z.eq_dec (src s e) Z0) as [->|Ne]; [rewrite (mr_rot _ _ _ _ _ _ _ M); rewrite hd_app; [auto|now apply rot_ne]|].
      rewrite mg_rot; auto. intros Q. destruct (of_in _ _ _ _ O e) as [I1 _]; [apply in_app_iff; auto|]. rewrite Q in I1. apply NRC. apply (vsof_inj N s C' R R); auto. now left.
  - rewrite map_app. assert (Ht : tl (pre1 ++ pre2) = tl pre1 ++ pre2) by (destruct pre1; [congruence|reflexivity]). rewrite Ht, !map_app, M2, M3, M4, !in_app_iff. cbn [In].
    pose proof (oface_R N p s C' _ G0 NC O) as ER. rewrite hd_app in ER by auto. destruct pre1 as [|q pre1]; [congruence|]. cbn [hd tl map app] in *. apply NoDup_cons_iff in Nd. rewrite ER in Nd. rewrite map_app in Nd.
    replace (map (src t) pre1) with (map (src s) pre1) by (injection M1; auto). destruct Nd as [Nd _]. rewrite in_app_iff in Nd.
    intros [[Q|[Q|Q]]|[Q|Q]]; [tauto|congruence| | |tauto].
    + destruct pre2 as [|q2 pre2]; [congruence|]. cbn [map tl] in Q. apply in_map_iff in Q. destruct Q as (e & Q1 & Q2). apply (Disj q e); [now left|apply in_app_iff; left; now right|congruence].
    + apply in_map_iff in Q. destruct Q as (e & Q1 & Q2). apply (Disj q e); [now left|apply in_app_iff; auto|congruence].
Qed.
Lemma mg_iface F0 r F : oface s C' F0 -> iface s C' r F -> In r (adj s C') -> r <> hd NIL (rot s C') -> In Z0 (map (src s) F0) -> iface t C' r F /\ map (src t) F = map (src s) F.
Proof.
  intros O I Hr Nr Iz. pose proof (iface_out _ _ _ _ _ _ _ G0 O I Hr Nr) as Dj. assert (MF : map (src t) F = map (src s) F) by (apply map_ext_in; intros e He; destruct (if_in _ _ _ _ _ I e He); now apply mg_src2).
  assert (IR : In (hd NIL (rot s R)) (adj s R)) by (apply in_rot, hd_in; now apply rot_ne). split; [|auto]. constructor.
  - apply (fclosed_sw (stp s) _ (sw (hd NIL (rot s Z0)) (hd NIL (rot s R)) (hd NIL (rot s Z0)) (hd NIL (rot s R)))); [apply I|intros e He; eapply mg_stp, (if_in _ _ _ _ _ I e He)|].
    intros e He. unfold sw. rewrite !eqb_false_neq; [auto| |]; intros ->.
    + destruct (if_in _ _ _ _ _ I _ He) as [I1 I2]. rewrite (arc_src _ _ _ _ _ G0 IR) in I1. apply NRC. apply (vsof_inj N s C' R R); auto. now left.
    + apply (Dj _ He). apply in_map_iff in Iz. destruct Iz as (e & E1 & E2). rewrite <- E1. now rewrite <- (of_st _ _ _ _ O e E2).
  - rewrite MF. apply I.
  - apply I.
  - intros e He. apply mg_inc1, I, He.
Qed.
Lemma mg_agree D : isroot D -> adj s D <> [] -> D <> R -> D <> C' -> agree N s t D.
Proof.
  intros HD ND N1 N2. assert (K : forall x, In x (vsof s D) -> x <> Z0 /\ x <> R).
  { intros x Hx. split; intros ->.
    - apply in_vsof in Hx. destruct Hx as [|[_ Hx]]; [unfold GeoP.prim, GeoP.isroot in *; lia|congruence].
    - apply N1. apply (vsof_inj N s D R R); auto. now left. }
  constructor.
  - intros x Hx. apply (mr_adj _ _ _ _ _ _ _ M); now apply K.
  - intros x Hx. now rewrite (mr_o _ _ _ _ _ _ _ M).
  - intros x e Hx He. rewrite (mr_nb _ _ _ _ _ _ _ M). destruct (inb_spec (twin e) (adj s R)) as [I|]; [|auto]. exfalso. pose proof (arc_comp N p _ _ _ _ _ _ G HD ND Hx He) as Iv.
    destruct (g_twins _ _ _ G0 _ _ He) as [_ T]. rewrite (g_disj _ _ _ G0 _ _ _ T I) in Iv. now apply (proj2 (K R Iv)).
  - unfold mem. apply filter_ext. intros z. rewrite (mr_B _ _ _ _ _ _ _ M). destruct (Z.eqb_spec (B s z) R) as [E|E]; [|auto]. rewrite E. rewrite !eqb_false_neq; auto.
Qed.
End Merge.

Section Embed.
Variables (a b : est) (C W f v : Z) (xs Q l1 l2 : list Z).
Local Notation s := (eV a).
Local Notation t := (eV b).
Hypothesis G : geo C xs s.
Hypothesis M : embed_rel a b C W Q f v l1 l2.
Hypotheses (HC : isroot C) (NC : adj s C <> []) (PW : prim W) (BW : B s W = C) (NW : adj s W <> []) (Nf : nb s f = W).
Hypothesis Fr : forall x, ~ In f (adj s x) /\ ~ In (twin f) (adj s x).
Let G0 : geob s := g_base _ _ _ _ _ G.
Let WC : W <> C. Proof. clear - PW HC. unfold GeoP.prim, GeoP.isroot in *. lia. Qed.
Lemma eb_rotC : rot t C = f :: rot s C.
Proof. rewrite (er_rot _ _ _ _ _ _ _ _ _ M). now rewrite Z.eqb_refl. Qed.
Lemma eb_rotW : rot t W = rot s W ++ [twin f].
Proof. rewrite (er_rot _ _ _ _ _ _ _ _ _ M). now rewrite eqb_false_neq, Z.eqb_refl. Qed.
Lemma eb_rot x : x <> C -> x <> W -> rot t x = rot s x.
Proof. intros. rewrite (er_rot _ _ _ _ _ _ _ _ _ M). now rewrite !eqb_false_neq. Qed.
Lemma eb_nb x e : In e (adj s x) -> nb t e = nb s e.
Proof. intros He. rewrite (er_nb _ _ _ _ _ _ _ _ _ M). rewrite eqb_false_neq; [auto|]. intros ->. exact (proj2 (Fr x) He). Qed.
Lemma eb_src x e : In e (adj s x) -> src t e = src s e.
Proof. intros He. unfold src. rewrite (er_nb _ _ _ _ _ _ _ _ _ M). rewrite eqb_false_neq; [auto|]. intros Q0. apply twin_eq_inj in Q0. subst e. exact (proj1 (Fr x) He). Qed.
Lemma eb_srcf : src t f = C /\ src t (twin f) = W.
Proof. unfold src. rewrite !(er_nb _ _ _ _ _ _ _ _ _ M), twin2, Z.eqb_refl. split; [auto|]. rewrite eqb_false_neq; [auto|]. intros Q0. exact (twin_ne f (eq_sym Q0)). Qed.
Lemma eb_vs D : vsof t D = vsof s D.
Proof. unfold GeoP.vsof, mem. now rewrite (er_B _ _ _ _ _ _ _ _ _ M). Qed.
Lemma eb_inc D e : inc s D e -> inc t D e.
Proof. intros [I1 I2]. unfold PlV.inc. rewrite (eb_src _ _ I2), eb_vs. split; [auto|]. apply (er_in _ _ _ _ _ _ _ _ _ M). auto. Qed.
Lemma eb_stp e x : In e (adj s x) -> stp t e = sw (hd NIL (rot s C)) (hd NIL (rot s W)) (twin f) f (stp s e).
Proof.
  intros He. destruct (arc_st _ _ _ _ _ G0 He) as (H1 & H2 & H3). unfold sw.
  pose proof (stp_hd s x C e G0 He NC) as K1. pose proof (stp_hd s x W e G0 He NW) as K2.
  assert (Nc : rot s C <> []) by (now apply rot_ne). assert (Nw : rot s W <> []) by (now apply rot_ne).
  assert (Ndc : NoDup (f :: rot s C)) by (constructor; [intros I; apply in_rot in I; exact (proj1 (Fr C) I)|apply rot_nodup, (g_nodup _ _ _ G0)]).
  assert (Ndw : NoDup (rot s W ++ [twin f])) by (apply NoDup_app_intro; [apply rot_nodup, (g_nodup _ _ _ G0)|repeat constructor; auto|intros y Hy [<-|[]]; apply in_rot in Hy; exact (proj2 (Fr W) Hy)]).
  unfold stp at 1, fstep. rewrite (eb_nb x) by auto. destruct (Z.eq_dec (nb s e) C) as [E|E]; [|destruct (Z.eq_dec (nb s e) W) as [E'|E']].
  - rewrite E, eb_rotC. rewrite E in H3. apply in_rot in H3. rewrite cnext_cons by auto.
    destruct (Z.eqb_spec (twin e) (last (rot s C) NIL)) as [Q1|Q1].
    + replace (stp s e =? hd NIL (rot s C)) with true; [auto|]. symmetry. apply Z.eqb_eq. now apply K1.
    + rewrite eqb_false_neq by (intros Q2; apply K1 in Q2; tauto). rewrite eqb_false_neq by (intros Q2; apply K2 in Q2; destruct Q2; congruence). unfold stp, fstep. now rewrite E.
  - rewrite E', eb_rotW. rewrite E' in H3. apply in_rot in H3. rewrite cnext_snoc by auto. rewrite (eqb_false_neq (stp s e)) by (intros Q2; apply K1 in Q2; destruct Q2; congruence).
    destruct (Z.eqb_spec (twin e) (last (rot s W) NIL)) as [Q1|Q1].
    + replace (stp s e =? hd NIL (rot s W)) with true; [auto|]. symmetry. apply Z.eqb_eq. now apply K2.
    + rewrite eqb_false_neq by (intros Q2; apply K2 in Q2; tauto). unfold stp, fstep. now rewrite E'.
  - rewrite eb_rot by auto. rewrite eqb_false_neq by (intros Q2; apply K1 in Q2; tauto). rewrite eqb_false_neq by (intros Q2; apply K2 in Q2; tauto). reflexivity.
Qed.
Lemma eb_faces pre suf : ov s C pre suf -> src s (hd NIL suf) = W ->
  oface t C (f :: suf) /\ iface t C (hd NIL (rot s C)) (pre ++ [twin f]) /\ map (src t) (f :: suf) = C :: map (src s) suf /\ map (src t) (pre ++ [twin f]) = map (src s) pre ++ [W].
Proof.
  intros V Es. pose proof (ov_cl _ _ _ _ _ V) as [_ Cl]. assert (N1 : pre <> []) by apply V. pose proof (ov_ne _ _ _ _ _ V) as N2. pose proof (ov_nd _ _ _ _ _ V) as Nd.
  assert (H1 : hd NIL pre = hd NIL (rot s C)) by apply V. assert (H2 : hd NIL suf = hd NIL (rot s W)) by (pose proof (ov_st _ _ _ _ _ V (hd NIL suf) (hd_in _ _ N2)) as K; now rewrite Es in K).
  destruct eb_srcf as [Sf Sf']. assert (Si : forall e, In e (pre ++ suf) -> src t e = src s e) by (intros e He; apply (eb_src (src s e)), (ov_in _ _ _ _ _ V e He)).
  assert (M1 : map (src t) pre = map (src s) pre) by (apply map_ext_in; intros; apply Si, in_app_iff; auto). assert (M2 : map (src t) suf = map (src s) suf) by (apply map_ext_in; intros; apply Si, in_app_iff; auto).
  set (h := sw (hd NIL (rot s C)) (hd NIL (rot s W)) (twin f) f) in *.
  assert (Fh : forall e, In e (pre ++ suf) -> stp t e = h (stp s e)) by (intros e He; apply (eb_stp e (src s e)), (ov_in _ _ _ _ _ V e He)).
  assert (IC : In (hd NIL (rot s C)) (adj s C)) by (apply in_rot, hd_in; now apply rot_ne). assert (IW : In (hd NIL (rot s W)) (adj s W)) by (apply in_rot, hd_in; now apply rot_ne).
  assert (NE : hd NIL (rot s C) <> hd NIL (rot s W)) by (intros Q0; rewrite Q0 in IC; apply WC, (g_disj _ _ _ G0 _ _ _ IW IC)).
  assert (Hi : forall x, x <> hd NIL pre -> x <> hd NIL suf -> h x = x) by (intros x A1 A2; unfold h, sw; rewrite !eqb_false_neq; auto; congruence).
  assert (Hc : h (hd NIL pre) = f) by (unfold h, sw; now rewrite H1, Z.eqb_refl).
  assert (Hw : h (hd NIL suf) = twin f) by (unfold h, sw; rewrite H2, eqb_false_neq, Z.eqb_refl by auto; auto).
  rewrite hd_app in Cl by auto. apply fchain_app in Cl. destruct Cl as [C1 C2]. replace (hd (hd NIL pre) suf) with (hd NIL suf) in C1 by (destruct suf; [congruence|reflexivity]).
  assert (Df : forall e, In e (pre ++ suf) -> e <> f /\ e <> twin f) by (intros e He; destruct (ov_in _ _ _ _ _ V e He) as [_ I2]; split; intros Q0; rewrite Q0 in I2 at 1; [exact (proj1 (Fr _) I2)|exact (proj2 (Fr _) I2)]).
  assert (Stf : stp t f = hd NIL suf). { unfold stp, fstep. assert (E : nb t f = W) by (rewrite (er_nb _ _ _ _ _ _ _ _ _ M), eqb_false_neq; [auto|intros Q0; exact (twin_ne f (eq_sym Q0))]). rewrite E, eb_rotW, cnext_last.
    - rewrite H2. pose proof (proj2 (rot_ne s W) NW) as Nw. destruct (rot s W); [congruence|reflexivity].
    - apply NoDup_app_intro; [apply rot_nodup, (g_nodup _ _ _ G0)|repeat constructor; auto|intros y Hy [<-|[]]; apply in_rot in Hy; exact (proj2 (Fr W) Hy)]. }
  assert (Stt : stp t (twin f) = hd NIL pre). { unfold stp, fstep. rewrite (er_nb _ _ _ _ _ _ _ _ _ M), Z.eqb_refl, twin2, eb_rotC, cnext_first, H1. pose proof (proj2 (rot_ne s C) NC) as Nc. destruct (rot s C); [congruence|reflexivity]. }
  assert (Vf : inc t C f). { split; rewrite Sf; [rewrite eb_vs; now left|]. apply (er_in _ _ _ _ _ _ _ _ _ M). auto. }
  assert (Vt : inc t C (twin f)). { split; rewrite Sf'; [rewrite eb_vs; apply in_vsof; auto|]. apply (er_in _ _ _ _ _ _ _ _ _ M). auto. }
  split; [constructor|split; [constructor|split]].
  - split; [discriminate|]. cbn [fchain hd]. split; [rewrite Stf; destruct suf; [congruence|reflexivity]|]. rewrite <- Hc. apply (fchain_sw (stp s)); [auto|intros; apply Fh, in_app_iff; auto|].
    intros x Hx. assert (Ix : In x suf) by (destruct suf; [destruct Hx|now right]). apply Hi; intros ->; [apply (NoDup_app_disj _ _ _ Nd (hd_in _ _ N1) Ix)|]. apply NoDup_app_r in Nd. destruct suf; [congruence|]. cbn [tl hd] in *. apply NoDup_cons_iff in Nd. tauto.
  - constructor; [intros Q0; destruct (Df f) as [K _]; [apply in_app_iff; auto|congruence]|now apply NoDup_app_r in Nd].
  - now rewrite eb_rotC.
  - intros e [<-|He]; [auto|]. apply eb_inc, V, in_app_iff. auto.
  - intros e [<-|He]; [now rewrite Sf, eb_rotC|]. rewrite Si by (apply in_app_iff; auto). rewrite (ov_st _ _ _ _ _ V e He) at 1. destruct (Z.eq_dec (src s e) C) as [E|E].
    + exfalso. apply (ov_R _ _ _ _ _ V). apply in_map_iff. exists e. split; [auto|apply in_app_iff; auto].
    + destruct (Z.eq_dec (src s e) W) as [->|]; [rewrite eb_rotW, hd_app; [auto|now apply rot_ne]|now rewrite eb_rot].
  - split; [intros Q0; apply app_eq_nil in Q0; destruct Q0; discriminate|]. rewrite hd_app by auto. apply fchain_app. cbn [hd fchain]. split; [|auto]. rewrite <- Hw. apply (fchain_sw (stp s)); [auto|intros; apply Fh, in_app_iff; auto|].
    intros x Hx. assert (Ix : In x pre) by (destruct pre; [destruct Hx|now right]). apply Hi; intros ->; [|apply (NoDup_app_disj _ _ _ Nd Ix (hd_in _ _ N2))]. apply NoDup_app_l in Nd. destruct pre; [congruence|]. cbn [tl hd] in *. apply NoDup_cons_iff in Nd. tauto.
  - rewrite map_app. cbn [map]. rewrite Sf', M1. pose proof (ov_np _ _ _ _ _ V) as NP. rewrite Es in NP. apply NoDup_cons_iff in NP. apply NoDup_app_intro; [tauto|repeat constructor; auto|]. intros y Hy [<-|[]]. tauto.
  - rewrite hd_app by auto. exact H1.
  - intros e He. apply in_app_iff in He. destruct He as [He|[<-|[]]]; [|auto]. apply eb_inc, V, in_app_iff. auto.
  - cbn [map]. now rewrite Sf, M2.
  - rewrite map_app. cbn [map]. now rewrite Sf', M1.
Qed.
Lemma ov_out pre suf r F : ov s C pre suf -> iface s C r F -> In r (adj s C) -> r <> hd NIL (rot s C) -> forall e, In e F -> ~ In e (pre ++ suf).
Proof.
  intros V I Hr Nr e H1 H2. assert (In r F) by (rewrite <- (if_hd _ _ _ _ _ I); apply hd_in, I). pose proof (fclosed_share _ _ _ _ (if_cl _ _ _ _ _ I) (ov_cl _ _ _ _ _ V) H1 H2 r H) as K.
  assert (N1 : pre <> []) by apply V. assert (Eh : hd NIL pre = hd NIL (rot s C)) by apply V. pose proof (ov_R _ _ _ _ _ V) as Nv. destruct pre as [|q pre]; [congruence|]. cbn [hd app tl] in *. destruct K as [->|K]; [congruence|].
  apply Nv. apply in_map_iff. exists r. split; [now apply (arc_src _ _ _ _ _ G0)|auto].
Qed.
Lemma eb_iface pre suf r F : ov s C pre suf -> src s (hd NIL suf) = W -> iface s C r F -> In r (adj s C) -> r <> hd NIL (rot s C) -> iface t C r F /\ map (src t) F = map (src s) F.
Proof.
  intros V Es I Hr Nr. pose proof (ov_out pre suf r F V I Hr Nr) as Dj. assert (MF : map (src t) F = map (src s) F) by (apply map_ext_in; intros e He; apply (eb_src (src s e)), (if_in _ _ _ _ _ I e He)).
  assert (N1 : pre <> []) by apply V. assert (Eh : hd NIL pre = hd NIL (rot s C)) by apply V. pose proof (ov_ne _ _ _ _ _ V) as N2.
  assert (H2 : hd NIL suf = hd NIL (rot s W)) by (pose proof (ov_st _ _ _ _ _ V (hd NIL suf) (hd_in _ _ N2)) as K; now rewrite Es in K).
  split; [|auto]. constructor.
  - apply (fclosed_sw (stp s) _ (sw (hd NIL (rot s C)) (hd NIL (rot s W)) (twin f) f)); [apply I|intros e He; apply (eb_stp e (src s e)), (if_in _ _ _ _ _ I e He)|].
    intros e He. unfold sw. rewrite !eqb_false_neq; [auto| |]; intros ->; apply (Dj _ He), in_app_iff; [right; rewrite <- H2; now apply hd_in|left; rewrite <- Eh; now apply hd_in].
  - rewrite MF. apply I.
  - apply I.
  - intros e He. apply eb_inc, I, He.
Qed.
Lemma eb_agree D : isroot D -> adj s D <> [] -> D <> C -> agree N s t D.
Proof.
  intros HD ND N1. assert (K : forall x, In x (vsof s D) -> x <> C /\ x <> W).
  { intros x Hx. split; intros ->.
    - apply N1. apply (vsof_inj N s D C C); auto. now left.
    - apply in_vsof in Hx. destruct Hx as [|[_ Hx]]; [unfold GeoP.prim, GeoP.isroot in *; lia|congruence]. }
  assert (Ka : forall x, In x (vsof s D) -> adj t x = adj s x).
  { intros x Hx. destruct (K x Hx) as [K1 K2]. pose proof (eb_rot x K1 K2) as E. unfold rot in E. rewrite (er_o _ _ _ _ _ _ _ _ _ M) in E. destruct (o s x); [|auto]. now rewrite <- (rev_involutive (adj t x)), E, rev_involutive. }
  constructor; auto.
  - intros x Hx. now rewrite (er_o _ _ _ _ _ _ _ _ _ M).
  - intros x e Hx He. now apply (eb_nb x).
  - unfold mem. now rewrite (er_B _ _ _ _ _ _ _ _ _ M).
Qed.
End Embed.
End V2.
