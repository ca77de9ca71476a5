(** * EmbC4: mirroring, dropping passed vertices and embedding an edge keep the obstruction invariant. *)
From Coq Require Import ZifyBool Permutation Sorted.
From Verif Require Import Base BaseP GraphRec GraphM GraphSpec GSimp LinkP GraphP2 ListM ListSpec ListP DFSM DFSSpec DFSP TestM TestP EmbM EmbSpec EmbP FaceP GeoP GeoP2 EmbInv EmbStep EmbTree EmbWalk EmbUp EmbJoin EmbDown PlanSpec EmbC1 EmbC2 EmbC3.

Section Keep.
Variables (g0 : graph) (kids : Z -> list Z).
Hypothesis St : static g0 kids.
Local Notation N := (gN g0).
Local Notation p := (viParent (gVI g0)).
Local Notation prim := (prim (gN g0)).
Local Notation isroot := (isroot (gN g0)).
Local Notation geo := (geo (gN g0) (viParent (gVI g0))).
Local Notation anc := (ancestor (viParent (gVI g0))).
Local Notation via := (via g0).
Local Notation act := (act g0).
Local Notation fsim := (fsim g0).
Local Notation hs := (hs g0).
Local Notation chain := (chain g0).
Local Notation dinv := (EmbDown.dinv g0 kids).
Variable E : Z -> Z -> Prop.
Local Notation lnk := (lnk E).
Local Notation cyc := (cyc g0 E).
Local Notation vat := (vat g0).
Local Notation tat := (tat g0).
Local Notation uact := (uact g0).
Local Notation ends := (ends g0).
Local Notation fine := (fine g0).
Local Notation cinv := (cinv g0 E).

(** What is assumed when completeness is claimed. *)
Record guard : Prop := {
  gd_ap : apexed g0 E; gd_nk : ~ kuratowski (vok g0) E;
  gd_sym : forall x y, E x y -> E y x; gd_tree : forall c, prim c -> p c <> NIL -> E c (p c) }.

Definition NV (v c : Z) (a : est) : Prop := forall f, In f (fw a v) -> ~ anc c (nb (eV a) f).
Definition NT (v c : Z) (a : est) : Prop := forall u f, u < v -> In f (fw a u) -> ~ anc c (nb (eV a) f).
Definition short (v c : Z) (a : est) : Prop := NV v c a /\ ((length (X (eV a) (N + c)) <= 2)%nat \/ NT v c a).
(** Walking the second side, the last vertex is where the first side stopped. *)
Definition Gd (v c : Z) (a : est) : Prop :=
  tat v a [] (last (X (eV a) (N + c)) NIL) /\ ~ vat v a [] (last (X (eV a) (N + c)) NIL) \/ short v c a.

(** ** The same state up to mirroring *)
Section Sim.
Variables a b : est.
Hypotheses (Ea : forall d, act (eV b) d <-> act (eV a) d) (En : nb (eV b) = nb (eV a)) (Ef : fw b = fw a).
Lemma hs_same Rs x z : hs (eV b) Rs x z <-> hs (eV a) Rs x z.
Proof. unfold EmbC2.hs. split; (intros [H|(d & H1 & H2)]; [now left|right; exists d; split; [now apply Ea|auto]]). Qed.
Lemma vat_same v Rs x : vat v b Rs x <-> vat v a Rs x.
Proof. unfold EmbC3.vat. rewrite Ef, En. split; intros (f & H1 & H2); exists f; (split; [auto|now apply hs_same]). Qed.
Lemma tat_same v Rs x : tat v b Rs x <-> tat v a Rs x.
Proof. unfold EmbC3.tat. rewrite Ef, En. split; (intros [Eo|(u & f & H0 & H1 & H2)]; [now left|]); right; exists u, f; (split; [auto|split; [auto|now apply hs_same]]). Qed.
Lemma uact_same d x : uact b d x <-> uact a d x.
Proof. unfold EmbC3.uact. rewrite Ef, En. split; (intros [Eo|(u & f & H0 & H1 & H2)]; [now left|]); right; exists u, f; (split; [auto|split; [auto|now apply hs_same]]). Qed.
Lemma fine_same v Rs L : fine v a Rs L -> fine v b Rs L.
Proof. intros F x w y Hs. rewrite !tat_same, vat_same. apply F; auto. Qed.
End Sim.
Lemma fine_sub v a Rs L L' : sub L' L -> fine v a Rs L -> fine v a Rs L'.
Proof. intros H F x w y Hs. apply F. exact (sub_trans _ _ _ Hs H). Qed.
Lemma fine_rev v a Rs L : fine v a Rs L -> fine v a Rs (rev L).
Proof. intros F x w y Hs T1 V T2. apply sub_rev in Hs. rewrite rev_involutive in Hs. exact (F y w x Hs T2 V T1). Qed.
Lemma cyc_same s t d Y : B t = B s -> cyc s d Y -> cyc t d Y.
Proof. intros EB []. constructor; auto. now rewrite EB. Qed.
Lemma cyc_rev s d Y : (forall x y, E x y -> E y x) -> cyc s d Y -> cyc s d (rev Y).
Proof.
  intros Es []. constructor.
  - intros H. apply cy_ne. rewrite <- (rev_involutive Y), H. reflexivity.
  - apply (lnk_rev E Es) in cy_lnk. cbn [rev] in cy_lnk. rewrite rev_app_distr in cy_lnk. exact cy_lnk.
  - now apply NoDup_rev.
  - intros y Hy. apply in_rev in Hy. auto.
Qed.
Lemma cinv_sim v c a b : (forall x y, E x y -> E y x) -> cinv v c a -> fsim (eV a) (eV b) -> fw b = fw a -> pe b = pe a -> prl b = prl a -> cinv v c b.
Proof.
  intros Es C S Ef Ep Er. pose proof (fun d => fsim_act g0 _ _ d S) as Ea. pose proof (fs_nb _ _ S) as En. constructor.
  - rewrite Ef, En. apply (ci_E _ _ _ _ _ C).
  - rewrite Ef, En. apply (ci_least _ _ _ _ _ C).
  - rewrite Ef, En. apply (ci_low _ _ _ _ _ C).
  - rewrite Ef, En, Ep. intros f Hf. destruct (ci_comp _ _ _ _ _ C f Hf) as [H1 H2]. split; [auto|]. intros d Ad. rewrite Er. apply H2. now apply Ea.
  - intros x. rewrite Er. apply (ci_ord _ _ _ _ _ C).
  - intros d Ad. apply Ea in Ad. destruct (ci_cyc _ _ _ _ _ C d Ad) as (Y & H1 & H2). destruct (fs_X _ _ S (N + d)) as [EX|EX]; rewrite EX.
    + exists Y. split; [|auto]. apply (cyc_same (eV a)); [apply (fs_B _ _ S)|auto].
    + exists (rev Y). split; [|now apply sub_rev]. apply cyc_rev; auto. apply (cyc_same (eV a)); [apply (fs_B _ _ S)|auto].
  - intros d Ad Nd. apply Ea in Ad. destruct (ci_ends _ _ _ _ _ C d Ad Nd) as [H|[H|[H1 H2]]].
    + left. destruct (fs_X _ _ S (N + d)) as [-> | ->]; rewrite ?rev_length; auto.
    + right; left. rewrite Ef, En. auto.
    + right; right. rewrite !(uact_same a b Ea En Ef). destruct (fs_X _ _ S (N + d)) as [-> | ->]; [auto|]. rewrite hd_rev, last_rev. auto.
  - apply (fsim_keep g0 (v + 1) a); [apply (ci_keep _ _ _ _ _ C)|auto|auto].
  - rewrite Ef. apply (ci_done _ _ _ _ _ C).
Qed.
Lemma cinv_any v c a : cinv v NIL a -> cinv v c a.
Proof. intros []. constructor; auto. intros d Ad _. apply ci_ends; auto. destruct Ad as [A _]. unfold GeoP.prim, NIL in *. lia. Qed.
Lemma cinv_restore v c a : cinv v c a -> ends a c -> cinv v NIL a.
Proof. intros [] H. constructor; auto. intros d Ad _. destruct (Z.eq_dec d c) as [->|]; auto. Qed.

(** Keeping what is needed when vertices nothing depends on leave the external face. *)
Lemma keep_drop v a b P : keep g0 (v + 1) a -> (forall x, In x P -> ~ vat v a [] x /\ ~ tat v a [] x) -> fwok g0 a ->
  (forall u f, In f (fw b u) -> In f (fw a u) /\ nb (eV b) f = nb (eV a) f) -> (forall d, act (eV b) d -> act (eV a) d) ->
  (forall y, In y (X (eV a) (B (eV a) y)) -> ~ In y P -> In y (X (eV b) (B (eV b) y))) -> keep g0 (v + 1) b.
Proof.
  intros Ke HP F Hf Ha Hx u f Hu Hi. destruct (Hf u f Hi) as [Hi' En]. destruct (Ke u f Hu Hi') as [K1 K2]. rewrite En.
  assert (Pn : prim (nb (eV a) f)). { destruct (fo_via _ _ F u f Hi') as (c' & V & _). apply V. }
  assert (HP' : forall x, In x P -> hs (eV a) [] x (nb (eV a) f) -> False).
  { intros x HI Hh. destruct (HP x HI) as [N1 N2]. destruct (Z.eq_dec u v) as [->|Ne]; [apply N1; exists f; auto|apply N2; right; exists u, f; split; [lia|auto]]. }
  split.
  - apply Hx; auto. intros HI. apply (HP' _ HI). now left.
  - intros d Hd Hanc Hl. apply Hx; [apply K2; auto|]. intros HI. apply (HP' _ HI). right. exists d. split; [auto|]. split; [intros []|auto].
Qed.

(** ** Stopping: the vertices passed leave the external face *)
Section Stop.
Variables (v c : Z) (a b : est) (P1 xs : list Z).
Hypotheses (F : fwok g0 a) (C : cinv v c a).
Hypotheses (En : nb (eV b) = nb (eV a)) (Ed : adj (eV b) = adj (eV a)) (EB : B (eV b) = B (eV a)) (Ef : fw b = fw a) (Ep : pe b = pe a) (Er : prl b = prl a).
Hypotheses (X1 : X (eV a) (N + c) = P1 ++ xs) (X2 : X (eV b) (N + c) = xs) (X3 : forall R, R <> N + c -> X (eV b) R = X (eV a) R).
Hypothesis HP : forall x, In x P1 -> ~ vat v a [] x /\ ~ tat v a [] x.
Lemma stop_act d : act (eV b) d <-> act (eV a) d.
Proof. unfold EmbTree.act. now rewrite Ed. Qed.
Lemma cinv_stop : cinv v c b.
Proof.
  pose proof stop_act as Ea. constructor.
  - rewrite Ef, En. apply (ci_E _ _ _ _ _ C).
  - rewrite Ef, En. apply (ci_least _ _ _ _ _ C).
  - rewrite Ef, En. apply (ci_low _ _ _ _ _ C).
  - rewrite Ef, En, Ep. intros f Hf. destruct (ci_comp _ _ _ _ _ C f Hf) as [H1 H2]. split; [auto|]. intros d Ad. rewrite Er. apply H2. now apply Ea.
  - intros x. rewrite Er. apply (ci_ord _ _ _ _ _ C).
  - intros d Ad. apply Ea in Ad. destruct (ci_cyc _ _ _ _ _ C d Ad) as (Y & H1 & H2). exists Y. split; [apply (cyc_same (eV a)); auto|]. destruct (Z.eq_dec d c) as [->|Ne].
    + rewrite X2. rewrite X1 in H2. exact (sub_trans _ _ _ (sub_drop P1 xs) H2).
    + rewrite X3 by lia. auto.
  - intros d Ad Nd. apply Ea in Ad. unfold EmbC3.ends. rewrite X3 by lia. rewrite Ef, En, !(uact_same a b Ea En Ef). apply (ci_ends _ _ _ _ _ C d Ad Nd).
  - apply (keep_drop v a b P1); auto; [apply (ci_keep _ _ _ _ _ C)|intros u f; rewrite Ef, En; auto|intros d; apply Ea|].
    intros y Hy Ny. rewrite EB. destruct (Z.eq_dec (B (eV a) y) (N + c)) as [E0|E0]; [|now rewrite X3]. rewrite E0 in *. rewrite X2. rewrite X1 in Hy. apply in_app_iff in Hy. tauto.
  - rewrite Ef. apply (ci_done _ _ _ _ _ C).
Qed.
End Stop.

(** ** Embedding *)
Section Embed.
Variables (v c : Z) (a b : est) (W : Z) (fr : list (Z * Z)) (P Q : list Z).
Hypotheses (Pv : prim v) (Pc : prim c) (Ec : p c = v).
Hypotheses (D : dinv v c a) (Db : dinv v c b) (C : cinv v c a) (Ac : act (eV a) c).
Hypotheses (PW : prim W) (Ch : chain a (N + c) W fr P Q) (Em : emrel g0 c a b W fr Q) (PE : pe a W <> NIL).
Hypothesis Hnb : forall u f, In f (fw b u) -> nb (eV b) f = nb (eV a) f.
Hypothesis HP : forall x, In x P -> ~ vat v a [] x /\ ~ tat v a [] x.
Hypothesis Fi : fine v a (map snd fr) (jx (eV a) W fr Q).
Local Notation G := (d_geo _ _ _ _ _ D).
Local Notation Rs := (map snd fr).

Lemma em_hs x z : hs (eV b) [] x z <-> hs (eV a) Rs x z.
Proof.
  unfold EmbC2.hs. split; (intros [H|(d & H1 & H2 & H3)]; [now left|right; exists d]).
  - apply (em_act _ _ _ _ _ _ _ Em) in H1. tauto.
  - split; [apply (em_act _ _ _ _ _ _ _ Em); auto|]. split; [intros []|auto].
Qed.
Lemma em_vat x : vat v b [] x -> vat v a Rs x.
Proof. intros (f & Hf & Hh). rewrite (Hnb v f Hf) in Hh. apply (em_fw _ _ _ _ _ _ _ Em) in Hf. exists f. split; [tauto|now apply em_hs]. Qed.
Lemma em_tat x : tat v b [] x -> tat v a Rs x.
Proof. intros [Eo|(u & f & Hu & Hf & Hh)]; [now left|]. rewrite (Hnb u f Hf) in Hh. apply (em_fw _ _ _ _ _ _ _ Em) in Hf. right. exists u, f. split; [auto|]. split; [tauto|now apply em_hs]. Qed.
Lemma em_fine : fine v b [] (X (eV b) (N + c)).
Proof. rewrite (em_X _ _ _ _ _ _ _ Em), Z.eqb_refl. intros x w y Hs T1 V T2. apply (Fi x w y Hs); [now apply em_tat|now apply em_vat|now apply em_tat]. Qed.
Lemma pe_W : In (pe a W) (fw a v) /\ nb (eV a) (pe a W) = W.
Proof. apply (d_pe _ _ _ _ _ D W PE). Qed.
Lemma fw_other u f : In f (fw a u) -> u <> v -> In f (fw b u).
Proof.
  intros Hf Ne. apply (em_fw _ _ _ _ _ _ _ Em). split; [auto|]. intros ->. apply Ne. pose proof (fo_twin _ _ (d_fw _ _ _ _ _ D) u _ Hf) as T. rewrite <- T. apply (fo_twin _ _ (d_fw _ _ _ _ _ D) v). apply pe_W.
Qed.
(** The external cycle of the merged component. *)
Lemma chain_cyc : forall fs w, chain a (N + c) w fs P Q ->
  exists Y, lnk (w :: Y ++ [v]) /\ NoDup (w :: Y) /\ (forall y, In y (w :: Y) -> prim y /\ In (B (eV a) y) (N + c :: map snd fs)) /\ sub (jx (eV a) w fs Q) (w :: Y).
Proof.
  clear PW Ch Em PE Fi. induction fs as [|[z R] fs IH]; intros w Cw.
  - destruct Cw as [C1 C2]. destruct (ci_cyc _ _ _ _ _ C c Ac) as (Y & [] & Sy). rewrite C2 in Sy. apply sub_split in Sy. destruct Sy as (Y1 & Y2 & EY & _ & Sy). exists Y2. subst Y. rewrite Ec in cy_lnk.
    split; [|split; [|split]].
    + apply (lnk_r E (v :: Y1)). cbn [app]. rewrite <- app_assoc in cy_lnk. exact cy_lnk.
    + now apply NoDup_app_r in cy_nd.
    + intros y Hy. destruct (cy_in y) as [H1 H2]; [apply in_app_iff; auto|]. split; [auto|]. left. auto.
    + cbn [jx]. now constructor.
  - pose proof (chain_lt g0 kids St _ _ _ _ _ _ _ G (c_root g0 c Pc) w Cw) as (_ & L2 & _). cbn [map snd] in L2. apply NoDup_cons_iff in L2. destruct L2 as [L2 _].
    destruct Cw as (C1 & (l & C2) & (d & D1 & D2 & D3 & D4) & C4). destruct (IH z C4) as (Y' & I1 & I2 & I3 & I4).
    pose proof (chain_lt g0 kids St _ _ _ _ _ _ _ G (c_root g0 c Pc) z C4) as (L1 & _ & _).
    destruct (ci_cyc _ _ _ _ _ C d D2) as (Y & [] & Sy). rewrite <- D1, C2 in Sy. apply (sub_split [] w l) in Sy. destruct Sy as (Y1 & Y2 & EY & _ & Sy). subst Y. rewrite D3 in cy_lnk.
    exists (Y2 ++ z :: Y'). assert (Nc : N + d <> N + c).
    { intros Q0. assert (d = c) by lia. subst d. assert (Pz : prim z) by (apply (I3 z); now left). destruct (chain_in g0 kids St _ _ _ _ _ _ _ _ G eq_refl Pc z Pz C4) as [A _].
      pose proof (c_lt g0 kids St v c Pv Pc Ec z Pz A). lia. }
    split; [|split; [|split]].
    + rewrite <- app_assoc. cbn [app] in *. rewrite <- app_assoc in cy_lnk. cbn [app] in cy_lnk. apply (lnk_r E (z :: Y1) (w :: Y2 ++ [z])) in cy_lnk.
      clear - cy_lnk I1. revert w cy_lnk. induction Y2 as [|y Y2 IH2]; intros w H; cbn [app] in *; (split; [apply H|]); [exact I1|]. apply IH2. apply H.
    + apply NoDup_app_r in cy_nd. change (w :: Y2 ++ z :: Y') with ((w :: Y2) ++ z :: Y'). apply NoDup_app_intro; [auto|auto|]. intros y H1 H2.
      destruct (cy_in y) as [_ B1]; [apply in_app_iff; auto|]. destruct (I3 y H2) as [_ [B2|B2]]; [lia|]. rewrite B1, <- D1 in B2. contradiction.
    + intros y Hy. change (w :: Y2 ++ z :: Y') with ((w :: Y2) ++ z :: Y') in Hy. apply in_app_iff in Hy. destruct Hy as [Hy|Hy].
      * destruct (cy_in y) as [H1 H2]; [apply in_app_iff; auto|]. split; [auto|]. right. left. cbn [snd]. congruence.
      * destruct (I3 y Hy) as [H1 [H2|H2]]; (split; [auto|]); [now left|right; now right].
    + cbn [jx]. rewrite C2. change (w :: Y2 ++ z :: Y') with ((w :: Y2) ++ z :: Y'). apply sub_app; [now constructor|auto].
Qed.
Lemma frame_B : forall fs w z R, chain a (N + c) w fs P Q -> In (z, R) fs -> In (B (eV a) z) (N + c :: map snd fs).
Proof.
  clear PW Ch Em PE Fi. induction fs as [|[z' R'] fs IH]; intros w z R Cw Hi; [destruct Hi|]. destruct Cw as (C1 & (l & C2) & (d & D1 & D2 & D3 & D4) & C4).
  assert (Tz : B (eV a) z' = hd (N + c) (map snd fs)) by (apply (chain_top g0 _ _ _ _ _ _ _ _ G (c_root g0 c Pc) C4)).
  destruct Hi as [Q0|Hi].
  - injection Q0 as Q1 Q2. rewrite <- Q1, Tz. destruct fs as [|[z2 R2] fs]; cbn [map snd hd In]; auto.
  - destruct (IH z' z R C4 Hi) as [H|H]; [now left|right; now right].
Qed.
Lemma frame_vat d : In (N + d) Rs -> vat v a [] (p d) /\ prim (p d) /\ anc c (p d) /\ In (B (eV a) (p d)) (N + c :: Rs).
Proof.
  intros Hd. apply in_map_iff in Hd. destruct Hd as ([z R] & E0 & Hi). cbn [snd] in E0. subst R. destruct (chain_in g0 kids St _ _ _ _ _ _ _ _ G eq_refl Pc W PW Ch) as (_ & _ & Fr).
  destruct (Fr z _ Hi) as (d' & D1 & D2 & D3 & D4 & D5 & D6). assert (d' = d) by lia. subst d'. rewrite D3. split; [|split; [auto|split; [auto|exact (frame_B fr W z _ Ch Hi)]]].
  apply (pert_vat g0 kids E a v c D C z D6 (c_lt g0 kids St v c Pv Pc Ec z D6 D5)). right. intros Q0. rewrite Q0 in D4. destruct D4.
Qed.
Lemma cinv_embed : cinv v c b.
Proof.
  clear Fi.
  pose proof (d_fw _ _ _ _ _ D) as F. pose proof pe_W as [Hf0 Hn0]. pose proof (vc g0 kids St v c Pv Pc Ec) as [Lvc _].
  assert (Hin : forall u f, In f (fw b u) -> In f (fw a u) /\ nb (eV b) f = nb (eV a) f) by (intros u f H; split; [now apply (em_fw _ _ _ _ _ _ _ Em)|eauto]).
  destruct (chain_in g0 kids St _ _ _ _ _ _ _ _ G eq_refl Pc W PW Ch) as (AW & _ & _).
  assert (BW : B (eV b) W = N + c).
  { rewrite (em_B _ _ _ _ _ _ _ Em). rewrite (chain_top g0 _ _ _ _ _ _ _ _ G (c_root g0 c Pc) Ch). destruct fr as [|[z R] fr']; cbn [map snd hd inb existsb]; [auto|]. now rewrite Z.eqb_refl. }
  assert (NR : ~ In (N + c) Rs). { intros Hi. pose proof (chain_lt g0 kids St _ _ _ _ _ _ _ G (c_root g0 c Pc) W Ch) as (L1 & _). specialize (L1 _ Hi). lia. }
  constructor.
  - intros u f Hf. destruct (Hin u f Hf) as [H1 ->]. apply (ci_E _ _ _ _ _ C); auto.
  - intros x Px L1 L2. destruct (ci_least _ _ _ _ _ C x Px L1 L2) as (f & F1 & F2). assert (Hb : In f (fw b (viLeast (gVI g0) x))) by (apply fw_other; [auto|lia]). exists f. split; [auto|]. now rewrite (Hnb _ f Hb).
  - intros d Px L1 L2. destruct (ci_low _ _ _ _ _ C d Px L1 L2) as (f & F1 & F2). assert (Hb : In f (fw b (viLow (gVI g0) d))) by (apply fw_other; [auto|lia]). exists f. split; [auto|]. now rewrite (Hnb _ f Hb).
  - intros f Hf. pose proof (proj1 (em_fw _ _ _ _ _ _ _ Em v f) Hf) as [Ha Ne]. rewrite (Hnb v f Hf). destruct (ci_comp _ _ _ _ _ C f Ha) as [H1 H2]. split.
    + rewrite (em_pe _ _ _ _ _ _ _ Em). rewrite upd_other; [auto|]. intros Q0. rewrite Q0 in H1. congruence.
    + intros d Ad An Lt. apply (em_act _ _ _ _ _ _ _ Em) in Ad. apply (em_prl _ _ _ _ _ _ _ Em). split; [apply H2; tauto|tauto].
  - intros x. apply (em_ord _ _ _ _ _ _ _ Em). apply (ci_ord _ _ _ _ _ C).
  - intros d Ad. apply (em_act _ _ _ _ _ _ _ Em) in Ad. destruct Ad as [Ad Nd]. rewrite (em_X _ _ _ _ _ _ _ Em). destruct (Z.eqb_spec (N + d) (N + c)) as [E0|E0].
    + assert (d = c) by lia. subst d. destruct (chain_cyc fr W Ch) as (Y & I1 & I2 & I3 & I4). exists (W :: Y). split; [|auto]. constructor; auto; [discriminate| |].
      * rewrite Ec. apply lnk_cons. split; [|exact I1]. intros _. cbn [app hd]. destruct (ci_E _ _ _ _ _ C v _ Hf0) as [H1 _]. now rewrite Hn0 in H1.
      * intros y Hy. destruct (I3 y Hy) as [H1 H2]. split; [auto|]. rewrite (em_B _ _ _ _ _ _ _ Em). destruct (inb_spec (B (eV a) y) Rs) as [|Nb]; [auto|]. destruct H2 as [H2|H2]; [auto|contradiction].
    + destruct (ci_cyc _ _ _ _ _ C d Ad) as (Y & [] & Sy). exists Y. split; [|auto]. constructor; auto. intros y Hy. destruct (cy_in y Hy) as [H1 H2]. split; [auto|]. rewrite (em_B _ _ _ _ _ _ _ Em), H2.
      destruct (inb_spec (N + d) Rs); [contradiction|auto].
  - intros d Adb Nd. pose proof (proj1 (em_act _ _ _ _ _ _ _ Em d) Adb) as [Ad NdR]. unfold EmbC3.ends. rewrite (em_X _ _ _ _ _ _ _ Em). rewrite (eqb_false_neq (N + d) (N + c)) by lia.
    destruct (X_nd g0 kids a v c D d Ad) as [_ Xne].
    assert (Tr : forall x, In x (X (eV a) (N + d)) -> uact a d x -> uact b d x).
    { intros x Hx [Eo|(u & f & Hu & Hf & Hh)]; [now left|]. right. destruct (X_in g0 kids St a v c D d x Ad Hx) as (Px & Bx & Ax).
      assert (Ne : f <> pe a W).
      { intros ->. assert (u = v) by (rewrite <- (fo_twin _ _ F u _ Hf); apply (fo_twin _ _ F v _ Hf0)). subst u. rewrite Hn0 in Hh.
        assert (AdW : anc d W) by (apply anc_trans with x; [auto|eapply hs_anc; eauto]). pose proof (B_near g0 kids St _ _ _ _ _ (d_geo _ _ _ _ _ Db) Adb PW AdW) as Bn. rewrite BW in Bn.
        assert (Adc : anc d c) by (apply (anc_total g0 kids St) with W; auto; lia). destruct (anc_up g0 _ _ Adc Nd) as [_ Au]. rewrite Ec in Au. pose proof (anc_le g0 kids St _ _ Pv Au).
        pose proof (proj2 (Hp g0 kids St d (proj1 Ad) (proj1 (proj2 Ad)))). lia. }
      assert (Hb : In f (fw b u)) by (apply (em_fw _ _ _ _ _ _ _ Em); auto). exists u, f. split; [auto|]. split; [auto|]. rewrite (Hnb u f Hb). apply em_hs.
      destruct Hh as [Q0|(d' & A1 & _ & A3 & A4 & A5)]; [now left|]. right. exists d'. split; [auto|]. split; [|auto]. intros Hi. destruct (frame_vat d' Hi) as (_ & _ & _ & Bi). rewrite A3, Bx in Bi.
      destruct Bi as [Bi|Bi]; [lia|contradiction]. }
    destruct (ci_ends _ _ _ _ _ C d Ad Nd) as [H|[H|[H1 H2]]]; [now left| |].
    + right; left. intros u f Hu Hf. destruct (Hin u f Hf) as [Ha ->]. apply (H u f Hu Ha).
    + right; right. split; apply Tr; auto; [now apply hd_in|now apply last_in].
  - apply (keep_drop v a b P); auto; [apply (ci_keep _ _ _ _ _ C)|intros d Hd; apply (em_act _ _ _ _ _ _ _ Em) in Hd; tauto|].
    destruct (chain_bot _ _ _ _ _ _ _ Ch) as [_ Xb]. intros y Hy NP. rewrite (em_B _ _ _ _ _ _ _ Em), (em_X _ _ _ _ _ _ _ Em). destruct (inb (B (eV a) y) Rs) eqn:Ei.
    + rewrite Z.eqb_refl. apply inb_true in Ei. apply jx_in. left. eauto.
    + destruct (Z.eqb_spec (B (eV a) y) (N + c)) as [Eb|]; [|auto]. apply jx_in. right. rewrite Eb, Xb in Hy. apply in_app_iff in Hy. tauto.
  - intros u Hu. destruct (fw b u) as [|f l] eqn:Ef; [auto|]. assert (Hf : In f (fw b u)) by (rewrite Ef; now left). apply Hin in Hf. rewrite (ci_done _ _ _ _ _ C u Hu) in Hf. destruct Hf as [[] _].
Qed.
Lemma Gd_embed : Gd v c a -> Gd v c b.
Proof.
  destruct (chain_in g0 kids St _ _ _ _ _ _ _ _ G eq_refl Pc W PW Ch) as (AW & _ & _). pose proof pe_W as [Hf0 Hn0].
  intros [[T V]|[NV0 _]]; [|elim (NV0 _ Hf0); now rewrite Hn0].
  left. destruct (chain_bot _ _ _ _ _ _ _ Ch) as [_ Xb].
  assert (EL : last (X (eV b) (N + c)) NIL = last (X (eV a) (N + c)) NIL).
  { rewrite (em_X _ _ _ _ _ _ _ Em), Z.eqb_refl, jx_last, Xb. symmetry. apply last_app_ne. discriminate. }
  rewrite EL. split.
  - destruct T as [Eo|(u & f & Hu & Hf & Hh)]; [now left|]. right. assert (Hb : In f (fw b u)) by (apply fw_other; [auto|lia]). exists u, f. split; [auto|]. split; [auto|]. rewrite (Hnb u f Hb). apply em_hs.
    destruct Hh as [Q0|(d' & A1 & _ & A3 & A4 & A5)]; [now left|]. right. exists d'. split; [auto|]. split; [|auto]. intros Hi. destruct (frame_vat d' Hi) as (Vt & _). rewrite A3 in Vt. contradiction.
  - intros V'. apply V. apply (vat_nil _ _ _ Rs). now apply em_vat.
Qed.
End Embed.

(** ** The end of a walk down one side *)
Definition fin (two : bool) (v c : Z) (b : est) : Prop :=
  if two then NV v c b /\ ends b c
  else tat v b [] (hd NIL (X (eV b) (N + c))) /\ ~ vat v b [] (hd NIL (X (eV b) (N + c))) \/ short v c b.
Section End_.
Variables (v c : Z) (a : est).
Hypotheses (Pv : prim v) (Pc : prim c) (Ec : p c = v).
Hypotheses (D : dinv v c a) (C : cinv v c a) (Ac : act (eV a) c).
Lemma none_NV : (forall x, In x (X (eV a) (N + c)) -> ~ vat v a [] x) -> NV v c a.
Proof.
  intros H f Hf A. destruct (lift_X g0 kids St E a v c D C c v f Ac ltac:(lia) (proj1 (vc g0 kids St v c Pv Pc Ec)) Hf A) as (e & He & Hh). apply (H e He). exists f. auto.
Qed.
Lemma none_NT : (forall x, In x (X (eV a) (N + c)) -> ~ tat v a [] x) -> NT v c a.
Proof.
  intros H u f Hu Hf A. pose proof (proj1 (vc g0 kids St v c Pv Pc Ec)). destruct (lift_X g0 kids St E a v c D C c u f Ac ltac:(lia) ltac:(lia) Hf A) as (e & He & Hh). apply (H e He). right. exists u, f. auto.
Qed.
Lemma fine_none L : (forall x, In x L -> ~ vat v a [] x) -> fine v a [] L.
Proof. intros H x w y Hs _ V _. apply (H w); auto. apply (sub_in _ _ _ Hs). right. now left. Qed.
Lemma pass_more two : (forall x, In x (X (eV a) (N + c)) -> ~ vat v a [] x /\ ~ tat v a [] x) -> fine v a [] (X (eV a) (N + c)) /\ fin two v c a.
Proof.
  intros H. assert (N1 : NV v c a) by (apply none_NV; intros x Hx; now apply H). assert (N2 : NT v c a) by (apply none_NT; intros x Hx; now apply H).
  split; [apply fine_none; intros x Hx; now apply H|]. destruct two; cbn [fin]; [|right; split; auto]. split; [auto|]. right. left. rewrite Ec. exact N2.
Qed.
Lemma stop_more two b P W Q P1 w1 xs :
  nb (eV b) = nb (eV a) -> adj (eV b) = adj (eV a) -> B (eV b) = B (eV a) -> fw b = fw a -> pe b = pe a -> prl b = prl a ->
  X (eV a) (N + c) = P ++ W :: Q -> P ++ W :: Q = P1 ++ w1 :: xs -> X (eV b) (N + c) = w1 :: xs -> (forall R, R <> N + c -> X (eV b) R = X (eV a) R) -> xs <> [] ->
  w1 = W /\ P1 = P \/ Q = [] /\ xs = [W] /\ P = P1 ++ [w1] -> (forall x, In x P -> ~ vat v a [] x /\ ~ tat v a [] x) -> ~ vat v a [] W -> tat v a [] W ->
  fine v a [] (W :: Q) -> (two = true -> Gd v c a) -> cinv v c b /\ fine v b [] (X (eV b) (N + c)) /\ fin two v c b.
Proof.
  intros En Ed EB Ef Ep Er XA EX XB XO Nx Alt HP NW TW Fi Hg.
  assert (Ea : forall d, act (eV b) d <-> act (eV a) d) by (apply stop_act; auto).
  assert (HV : forall x, vat v b [] x <-> vat v a [] x) by (intros x; apply vat_same; auto). assert (HT : forall x, tat v b [] x <-> tat v a [] x) by (intros x; apply tat_same; auto).
  assert (Cb : cinv v c b).
  { apply (cinv_stop v c a b P1 (w1 :: xs)); auto; [apply (d_fw _ _ _ _ _ D)|now rewrite XA|]. intros x Hx. apply HP. destruct Alt as [[_ <-]|(_ & _ & ->)]; [auto|]. apply in_app_iff. auto. }
  assert (HN : NV v c a -> NV v c b) by (unfold NV; now rewrite Ef, En). assert (HN' : NT v c a -> NT v c b) by (unfold NT; now rewrite Ef, En).
  destruct Alt as [[-> ->]|(EQ & Exs & EP)].
  - apply app_inv_head in EX. injection EX as EX. subst xs. split; [auto|]. split; [rewrite XB; apply (fine_same a b); auto|]. destruct two; cbn [fin].
    + destruct (Hg eq_refl) as [[Tl Vl]|[N1 N2]].
      * assert (EL : last (X (eV a) (N + c)) NIL = last (W :: Q) NIL) by (rewrite XA; apply last_app_ne; discriminate). rewrite EL in Tl, Vl. split.
        -- apply HN. apply none_NV. rewrite XA. intros x Hx. apply in_app_iff in Hx. destruct Hx as [Hx|[<-|Hx]]; [now apply HP|auto|]. intros V.
           assert (Ne : x <> last (W :: Q) NIL) by (intros ->; contradiction). apply (Fi W x (last (W :: Q) NIL)); auto. apply (sub_last [W] x); [|auto]. constructor. now apply sub1.
        -- right; right. rewrite XB. cbn [hd]. unfold EmbC3.uact. rewrite Ec. split; [exact (proj2 (HT W) TW)|exact (proj2 (HT _) Tl)].
      * split; [auto|]. destruct N2 as [N2|N2]; [left|right; left; rewrite Ec; exact (HN' N2)]. rewrite XB. rewrite XA, app_length in N2. lia.
    + left. rewrite XB. cbn [hd]. rewrite HV, HT. auto.
  - subst Q xs. assert (Hn : forall x, In x (X (eV a) (N + c)) -> ~ vat v a [] x).
    { rewrite XA. intros x Hx. apply in_app_iff in Hx. destruct Hx as [Hx|[<-|[]]]; [now apply HP|auto]. }
    split; [auto|]. split.
    + rewrite XB. apply (fine_same a b); auto. apply fine_none. intros x Hx. apply Hn. rewrite XA, EX. apply in_app_iff. auto.
    + assert (N1 : NV v c b) by (apply HN, none_NV, Hn). destruct two; cbn [fin]; [split; [auto|]|right; split; [auto|]]; left; rewrite XB; cbn [length]; lia.
Qed.
End End_.
End Keep.
