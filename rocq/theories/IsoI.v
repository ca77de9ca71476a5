(** * IsoI: the isolator context. *)
From Coq Require Import ZifyBool Permutation.
From Verif Require Import Base BaseP GraphRec GraphM GraphSpec GSimp LinkP GraphP GraphP2 GraphP3 ListM ListSpec DFSM DFSSpec DFSP TestM TestP EmbM EmbSpec EmbP EmbP2 FaceP GeoP EmbInv EmbStep EmbTree EmbWalk EmbOrient EmbJoin EmbDown EmbDown3 EmbFan FanP IsoM IsoP1 IsoP2 IsoP3 IsoP4 IsoO IsoO2 IsoX IsoX2 IsoX3 IsoX4.

Section Init.
Variables (g0 : graph) (kids : Z -> list Z).
Hypothesis St : static g0 kids.
Local Notation N := (gN g0).
Local Notation p := (viParent (gVI g0)).
Local Notation prim := (prim (gN g0)).
Local Notation isroot := (isroot (gN g0)).
Local Notation anc := (ancestor (viParent (gVI g0))).
Local Notation geo := (geo (gN g0) (viParent (gVI g0))).
Local Notation act := (act g0).
Local Notation rp := (rp g0).
Local Notation rpv := (rpv g0).
Local Notation marked := (marked g0).
Variables (a : est) (d : Z).
Local Notation s := (eV a).
Local Notation R := (gN g0 + d).
Local Notation L := (X (eV a) (gN g0 + d)).
Hypothesis G : geo NIL [] s.
Hypothesis Ad : act s d.
Hypothesis Ou : forall y, prim y -> p y <> NIL -> In y (X s (B s y)).
Hypothesis Fs : cfan (nbrs s) R L.
Hypothesis Oz : o s R = false.
Hypothesis NLp : noloop g0 a.

Lemma L_facts : L <> [] /\ NoDup (R :: L) /\ (forall x, In x L -> prim x /\ B s x = R /\ anc d x /\ p x <> NIL).
Proof. clear Oz.
  destruct (full_of g0 _ _ G Ad) as [HR F]. destruct (X_facts g0 _ _ F) as (Xne & Xnd & Xin). split; [auto|].
  assert (P : forall x, In x L -> prim x /\ B s x = R /\ anc d x /\ p x <> NIL).
  { intros x Hx. destruct (Xin x Hx) as [P1 P2]. destruct (B_anc g0 kids St _ _ _ d x G (proj1 Ad) P1 P2). auto. }
  split; [|exact P]. constructor; [|auto]. intros Q. apply P in Q. destruct Q as [Q _]. unfold GeoP.isroot, GeoP.prim in *. lia.
Qed.
Lemma L_rng x : In x (R :: L) -> 1 <= x <= 2 * N.
Proof. clear Oz. destruct L_facts as (_ & _ & P). intros [<-|Hx]; [destruct Ad as [Q _]|apply P in Hx; destruct Hx as [Q _]]; unfold GeoP.prim in Q; lia. Qed.
Lemma vs_L x : In x (vsof N s R) <-> In x (R :: L).
Proof. clear Oz.
  destruct L_facts as (_ & _ & P). unfold vsof, mem. cbn [In]. rewrite filter_In, in_zrange. split; (intros [Q|Q]; [now left|right]).
  - destruct Q as [Q1 Q2]. apply Z.eqb_eq in Q2. rewrite <- Q2. assert (prim x) by (unfold GeoP.prim; destruct Ad as [Q0 _]; unfold GeoP.prim in Q0; lia). apply Ou; [auto|].
    intros E. destruct (g_B0 _ _ _ (g_base _ _ _ _ _ G) x H E) as [E1 _]. destruct Ad as [Q0 _]. unfold GeoP.prim, NIL in *. lia.
  - destruct (P x Q) as (P1 & P2 & _). unfold GeoP.prim in P1. split; [lia|]. now apply Z.eqb_eq.
Qed.
Lemma mem_ne : mem N s R <> [].
Proof. clear Oz.
  destruct L_facts as (Ne & _ & P). destruct L as [|x l] eqn:E; [congruence|]. intros Q. assert (H : In x (vsof N s R)) by (apply vs_L; rewrite E; right; now left). unfold vsof in H. rewrite Q in H. destruct H as [H|[]].
  destruct (P x (or_introl eq_refl)) as (P1 & _). destruct Ad as [Q0 _]. unfold GeoP.prim in *. lia.
Qed.

Section Turned.
Variables (D : Z -> bool) (b : est).
Hypothesis Tu : turned a D b.
Hypothesis DT : forall x, In x (vsof N s R) -> D x = true.
Lemma tu_same x e : In e (adj (eV b) x) <-> In e (adj s x).
Proof. rewrite (tu_adj _ _ _ Tu). unfold EmbOrient.dlist. destruct (D x); [apply in_rot|tauto]. Qed.
Lemma tu_tw x e : In e (adj (eV b) x) -> nb (eV b) (twin e) = x /\ In (twin e) (adj (eV b) (nb (eV b) e)).
Proof. intros H. apply tu_same in H. destruct (g_twins _ _ _ (g_base _ _ _ _ _ G) _ _ H) as [H1 H2]. rewrite (tu_nb _ _ _ Tu). split; [auto|]. now apply tu_same. Qed.
Lemma tu_loop x e : In e (adj (eV b) x) -> nb (eV b) e <> x.
Proof.
  intros H. apply tu_same in H. destruct (g_twins _ _ _ (g_base _ _ _ _ _ G) _ _ H) as [H1 H2]. rewrite (tu_nb _ _ _ Tu). intros Q. apply (NLp e); [left; eauto|]. now rewrite H1, Q.
Qed.
Lemma tu_fan : cfan (fun x => map (nb (eV b)) (adj (eV b) x)) R L.
Proof.
  destruct L_facts as (Ne & _ & P). apply (cfan_ext (nbrs s)); [auto| |auto]. intros x Hx. rewrite (tu_nb _ _ _ Tu), (tu_adj _ _ _ Tu). unfold EmbOrient.dlist. rewrite DT; [reflexivity|]. now apply vs_L.
Qed.
End Turned.

Variables (pt : Z -> bool) (x w : Z) (M1 M2 : list Z).
Hypothesis Hpt : forall y, In y L -> pt y = negb (pe a y =? NIL) || negb (isnil (prl a y)).
Hypothesis Hpr : forall y e, In y L -> In e (prl a y) -> prim e.
Hypothesis EL : L = x :: M1 ++ w :: M2.
Hypothesis Nx : forall y, In y (x :: M1) -> pt y = false.
Hypothesis Pw : pt w = true.
Hypothesis NM : M2 <> [].

(** The context found by the isolator. *)
Record ctx (g : graph) (b : est) (D : Z -> bool) (F : Z -> Z) (stk0 : list Z) : Prop := {
  cx_rp : rpv g (setfl b F) stk0; cx_turn : turned a D b; cx_D : forall y, In y (vsof N s R) -> D y = true;
  cx_mark : marked (fl s) F []; cx_vis : vis0 g0 g; cx_R : vtype g R = 0;
  cx_x : forall y, In y (x :: M1) -> vtype g y = OBS_LOW_RXW; cx_y : forall y, In y M2 -> vtype g y = OBS_LOW_RYW }.

Lemma init_ok g F stk stk0 R0 : rpv g (setfl a F) stk -> marked (fl s) F [] -> vis0 g0 g ->
  (forall e, Z.land (F e) EDGEFLAG_INVERTED_MASK = Z.land (fl s e) EDGEFLAG_INVERTED_MASK) ->
  (stk = [] /\ stk0 = [] /\ R0 = R) \/ (exists y, stk = y :: R :: stk0) -> Z.of_nat (length stk0) + 2 * Z.of_nat (length (mem N s R)) <= gstackCap g0 ->
  exists g' b D F', _InitializeNonplanarityContext g R0 = Ret (g', C_OK, (R, x, last M2 NIL, w)) /\ ctx g' b D F' stk0.
Proof.
  intros H Mk V0 Iv Hs Cap. destruct L_facts as (Ne & Nd & P). destruct (full_of g0 _ _ G Ad) as [HR Fu]. pose proof mem_ne as NMe. pose proof (proj2 (proj2 Ad)) as NA.
  unfold _InitializeNonplanarityContext.
  assert (exists g1, (if stk_empty g then Ret (g, R0) else '(g, R, _) <- stk_pop2 g ;; Ret (g, R)) = Ret (g1, R) /\ rpv g1 (setfl a F) stk0 /\ vis0 g0 g1) as (g1 & E1 & H1 & V1).
  { unfold stk_empty. rewrite (r_stack _ _ _ _ H). destruct Hs as [(-> & -> & ->)|(y & ->)]; [exists g; auto|].
    rewrite (DFSP.pop2_ok g R y stk0) by (apply (r_stack _ _ _ _ H)). cbn [bind]. exists (set_gstack g stk0). split; [reflexivity|]. split; [|exact V0]. exact (rp_stack _ _ _ _ stk0 H). }
  rewrite E1. cbn [bind]. clear E1.
  destruct (orient_pres g0 kids St a G R HR NA stk0 Cap NMe g1 F H1 Mk V1 Iv Oz) as (g2 & b & D & E2 & H2 & Tu & DT & _ & V2). rewrite E2. cbn [bind]. clear E2.
  pose proof (tu_same D b Tu) as Sm. pose proof (tu_tw D b Tu) as Tw. pose proof (tu_fan D b Tu DT) as Fn.
  destruct (clear_vis_ok g0 kids St a G R HR NA stk0 Cap NMe g2 b F H2 Sm (tu_nb _ _ _ Tu) Mk V2) as (g3 & F3 & E3 & H3 & Mk3 & V3). rewrite E3. cbn [bind]. clear E3.
  pose proof (fan_rims g0 b R L Tw Nd L_rng Fn Ne) as PR. rewrite (find_active_ok g0 b R L Nd L_rng PR Ne g3 F3 stk0 H3). cbn [bind].
  assert (EL2 : last L NIL = last M2 NIL). { rewrite EL. change (x :: M1 ++ w :: M2) with ((x :: M1) ++ w :: M2). rewrite last_app_ne by discriminate. destruct M2; [congruence|reflexivity]. }
  assert (EL1 : hd NIL L = x) by (rewrite EL; reflexivity). rewrite EL1, EL2. destruct (list_snoc M2) as [Q|(M2' & y & EM)]; [congruence|]. rewrite EM, last_snoc.
  pose proof (walk_fwd g0 b R L L_rng PR) as Wf. pose proof (walk_bwd g0 b R L L_rng PR) as Wb.
  rewrite EL in Wf. rewrite EL, EM in Wb.
  assert (Nd' : NoDup (R :: x :: M1 ++ w :: M2' ++ [y])) by (rewrite <- EM, <- EL; exact Nd).
  assert (Wf1 : walk g0 b 1 (x :: M1 ++ [w])).
  { apply (walk_r g0 b 1 [R]) in Wf. replace ((x :: M1 ++ w :: M2) ++ [R]) with ((x :: M1 ++ [w]) ++ M2 ++ [R]) in Wf by (cbn [app]; rewrite <- !app_assoc; reflexivity). now apply walk_l in Wf. }
  assert (Wb1 : nxt g0 b 0 R y /\ walk g0 b 0 (y :: rev M2' ++ [w])).
  { replace (R :: rev (x :: M1 ++ w :: M2' ++ [y]) ++ [R]) with ((R :: y :: rev M2' ++ [w]) ++ rev M1 ++ [x] ++ [R]) in Wb; [|cbn [rev]; rewrite rev_app_distr; cbn [rev]; rewrite rev_app_distr; cbn [rev app]; rewrite <- !app_assoc; reflexivity]. apply walk_l in Wb. exact Wb. }
  assert (Wf0 : nxt g0 b 1 R x) by (cbn [app walk] in Wf; apply Wf).
  assert (IL : forall z, In z (x :: M1 ++ w :: M2' ++ [y]) -> In z L) by (intros z; rewrite EL, EM; auto).
  assert (LenL : Z.of_nat (length L) <= 2 * N).
  { destruct L_facts as (_ & Q & P'). apply NoDup_cons_iff in Q. destruct Q as [_ Q]. assert (length L <= length (zrange 1 (Z.to_nat N)))%nat; [|rewrite zrange_length in H0; destruct Ad as [A1 _]; unfold GeoP.prim in A1; lia].
    apply NoDup_incl_length; [auto|]. intros z Hz. destruct (P' z Hz) as [Q1 _]. unfold GeoP.prim in Q1. apply in_zrange. lia. }
  assert (LenM : (length M1 + length M2' + 3 <= Z.to_nat (2 * N))%nat) by (rewrite EL, EM in LenL; repeat (cbn [length] in LenL; rewrite ?app_length in LenL); lia).
  unfold _FindPertinentVertex. rewrite (rpv_N g0 _ _ _ H3).
  assert (PP : forall z, In z L -> PERTINENT g3 z = Ret (pt z)).
  { intros z Hz. destruct (P z Hz) as (P1 & _). rewrite (pert_rpv g0 g3 _ _ z H3 P1); cbn [setfl set_V prl pe]; rewrite (tu_prl _ _ _ Tu); [|intros e; now apply Hpr]. now rewrite (tu_pe _ _ _ Tu), Hpt. }
  apply NoDup_cons_iff in Nd'. destruct Nd' as [NR Nd']. change (x :: M1 ++ w :: M2' ++ [y]) with ((x :: M1) ++ w :: M2' ++ [y]) in *. assert (Dj : forall z, In z (x :: M1) -> ~ In z (w :: M2' ++ [y])) by (intros z Z1 Z2; exact (NoDup_app_disj _ _ z Nd' Z1 Z2)). pose proof (NoDup_app_r _ _ Nd') as Nr.
  assert (Nw : ~ In w (x :: M1)) by (intros Q; apply (Dj w Q); now left). apply NoDup_cons_iff in Nr. destruct Nr as [Nw2 Nr].
  assert (Ny : ~ In y (x :: M1)) by (intros Q; apply (Dj y Q); right; apply in_app_iff; right; now left).
  assert (Nwy : w <> y) by (intros Q; apply Nw2; rewrite Q; apply in_app_iff; right; now left).
  rewrite (find_pert_ok g0 b L g3 F3 stk0 y w pt H3 PP Pw Nwy) with (K := M1); auto.
  2:{ apply IL. apply in_app_iff. right. now left. }
  2:{ intros Q. apply Nw. now left. }
  2:{ intros Q. apply in_app_iff in Q. destruct Q as [Q|[Q|[]]]; [apply Ny; now right|congruence]. }
  2:{ intros z Hz. apply IL. apply in_app_iff. left. now right. }
  2:{ intros z Hz. apply Nx. now right. }
  2:{ lia. }
  cbn [bind]. unfold _SetVertexTypesForMarkingXYPath.
  assert (Pz : forall z, In z L -> z <> NIL) by (intros z Hz; destruct (P z Hz) as [Q _]; unfold GeoP.prim, NIL in *; lia).
  assert (Nn : (R =? NIL) || (x =? NIL) || (y =? NIL) || (w =? NIL) = false).
  { rewrite !eqb_false_neq; [reflexivity|..]; try (apply Pz, IL; rewrite in_app_iff; cbn [In]; rewrite in_app_iff; cbn [In]; tauto). unfold GeoP.isroot, NIL in *. lia. }
  rewrite Nn.
  destruct (clear_type_ok g0 kids St a G R HR NA stk0 Cap NMe g3 b F3 H3 Sm (tu_nb _ _ _ Tu) Mk3 V3) as (g4 & F4 & E4 & H4 & Mk4 & V4 & T4). rewrite E4. cbn [bind]. clear E4.
  rewrite (Wf0 g4 F4 stk0 H4). cbn [bind]. rewrite (rpv_N g0 _ _ _ H4).
  destruct (set_types_ok g0 b 1 OBS_LOW_RXW x w stk0 F4 eq_refl eq_refl M1 x (S (S (Z.to_nat (2 * N)))) g4 OBS_HIGH_RXW) as (g5 & E5 & H5 & V5 & T5); auto.
  { intros z Hz. apply L_rng. right. apply IL. apply in_app_iff. now left. }
  { lia. }
  rewrite E5. cbn [bind]. clear E5. rewrite (proj1 Wb1 g5 F4 stk0 H5). cbn [bind]. rewrite (rpv_N g0 _ _ _ H5).
  destruct (set_types_ok g0 b 0 OBS_LOW_RYW y w stk0 F4 eq_refl eq_refl (rev M2') y (S (S (Z.to_nat (2 * N)))) g5 OBS_HIGH_RYW) as (g6 & E6 & H6 & V6 & T6); auto.
  { exact (proj2 Wb1). }
  { intros [Q|Q]; [congruence|]. apply in_rev in Q. apply Nw2. apply in_app_iff. now left. }
  { intros z Hz. apply L_rng. right. apply IL. apply in_app_iff. right. right. apply in_app_iff. destruct Hz as [<-|Hz]; [right; now left|left; now apply in_rev]. }
  { rewrite rev_length. lia. }
  rewrite E6. cbn [bind]. exists g6, b, D, F4. split; [reflexivity|].
  assert (NR1 : ~ In R (x :: M1)) by (intros Q; apply NR; apply in_app_iff; now left). assert (NR2 : ~ In R (M2' ++ [y])) by (intros Q; apply NR; apply in_app_iff; right; now right).
  assert (I2 : forall z, In z (y :: rev M2') <-> In z (M2' ++ [y])) by (intros z; cbn [In]; rewrite in_app_iff, <- in_rev; cbn [In]; tauto).
  constructor; auto.
  - rewrite T6, T5. destruct (in_dec Z.eq_dec R (y :: rev M2')) as [Q|_]; [apply I2 in Q; contradiction|]. destruct (in_dec Z.eq_dec R (x :: M1)); [contradiction|]. apply T4. now left.
  - intros z Hz. rewrite T6, T5. destruct (in_dec Z.eq_dec z (y :: rev M2')) as [Q|_]; [apply I2 in Q; exfalso; apply (Dj z Hz); now right|]. destruct (in_dec Z.eq_dec z (x :: M1)); [reflexivity|contradiction].
  - intros z Hz. rewrite EM in Hz. rewrite T6. destruct (in_dec Z.eq_dec z (y :: rev M2')) as [Q|Q]; [reflexivity|]. exfalso. apply Q. now apply I2.
Qed.
End Init.
