(** * PlI: the vertices of the faces at the root of the component being walked do not cross its external face. *)
From Coq Require Import ZifyBool Permutation Sorted.
From Verif Require Import Base BaseP GraphRec GraphM GraphSpec GSimp LinkP GraphP GraphP2 ListM ListSpec ListP DFSM DFSSpec DFSP TestSpec TestP TestP3 EmbM EmbSpec EmbP FaceP FanP GeoP GeoP2 EmbInv EmbStep EmbTree EmbWalk EmbFan EmbUp EmbJoin PlV PlV2 PlV3 NcP EmbDown PlanSpec EmbC1 EmbC2 EmbC3 EmbC4.

(** A split of a list without repetitions is determined by its middle element. *)
Lemma split_uniq (A : list Z) x B A' B' : NoDup (A ++ x :: B) -> A ++ x :: B = A' ++ x :: B' -> A = A' /\ B = B'.
Proof.
  revert A'. induction A as [|y A IH]; intros [|y' A'] Nd E; cbn [app] in *.
  - injection E as E. auto.
  - injection E as -> E. apply NoDup_cons_iff in Nd. destruct Nd as [Nd _]. elim Nd. rewrite E. apply in_app_iff. right. now left.
  - injection E as -> E. apply NoDup_cons_iff in Nd. destruct Nd as [Nd _]. elim Nd. apply in_app_iff. right. now left.
  - injection E as -> E. apply NoDup_cons_iff in Nd. destruct Nd as [_ Nd]. destruct (IH _ Nd E) as [-> ->]. auto.
Qed.
Lemma split_or (A B C D : list Z) x : A ++ B = C ++ x :: D -> (exists D', A = C ++ x :: D' /\ D = D' ++ B) \/ (exists C', B = C' ++ x :: D /\ C = A ++ C').
Proof.
  revert C. induction A as [|y A IH]; intros C E; cbn [app] in *.
  - right. exists C. auto.
  - destruct C as [|z C]; cbn [app] in E; injection E as -> E.
    + left. exists A. auto.
    + destruct (IH C E) as [(D' & -> & ->)|(C' & -> & ->)]; [left; exists D'|right; exists C']; auto.
Qed.

Section PI.
Variables (g0 : graph) (kids : Z -> list Z).
Hypothesis St : static g0 kids.
Local Notation N := (gN g0).
Local Notation p := (viParent (gVI g0)).
Local Notation prim := (prim (gN g0)).
Local Notation isroot := (isroot (gN g0)).
Local Notation geo := (geo (gN g0) (viParent (gVI g0))).
Local Notation geob := (geob (gN g0) (viParent (gVI g0))).
Local Notation anc := (ancestor (viParent (gVI g0))).
Local Notation act := (act g0).
Local Notation fsim := (fsim g0).
Local Notation vsof := (vsof (gN g0)).
Local Notation inc := (inc (gN g0)).
Local Notation oface := (oface (gN g0)).
Local Notation iface := (iface (gN g0)).
Local Notation chain := (chain g0).
Local Notation Lw := (Lw g0).
Local Notation comb := (comb g0).
Local Notation lc := (lc g0).
Local Notation hs := (hs g0).
Local Notation vat := (vat g0).
Local Notation tat := (tat g0).
Local Notation fpt := (fpt g0).
Local Notation dinv := (EmbDown.dinv g0 kids).
Local Notation low d := (viLow (gVI g0) d).

Lemma Lw_facts s R L : geob s -> isroot R -> adj s R <> [] -> Lw s R L -> NoDup L /\ forall x, In x L -> prim x /\ B s x = R.
Proof.
  intros G HR NR (F & O & <-). pose proof (oface_nd N p s R F G O) as Nd. rewrite (oface_srcs N p s R F G NR O) in Nd. apply NoDup_cons_iff in Nd. destruct Nd as [Nr Nd]. split; [auto|].
  intros x Hx. assert (Hx' : In x (map (src s) F)) by (destruct F; [destruct Hx|right; auto]). apply in_map_iff in Hx'. destruct Hx' as (e & <- & He).
  destruct (of_in _ _ _ _ O e He) as [I _]. apply in_vsof in I. destruct I as [I|I]; [|auto]. rewrite I in Hx. contradiction.
Qed.

(** ** Faces at the root *)
(** The vertices of the face that ends before the arc r of the root, from the neighbour before it. *)
Definition isfl (s : gv) (R r : Z) (fl : list Z) : Prop := exists F, iface s R r F /\ fl = rev (tl (map (src s) F)).
Definition Fls (s : gv) (R : Z) (rs : list Z) (fls : list (list Z)) : Prop := Forall2 (isfl s R) rs fls.
Lemma fl_facts s R r fl : geob s -> isroot R -> In r (adj s R) -> isfl s R r fl -> NoDup fl /\ forall x, In x fl -> prim x /\ B s x = R.
Proof.
  intros G HR Hr (F & I & ->). pose proof (if_nd _ _ _ _ _ I) as Nd. assert (NF : F <> []) by apply I. assert (E : src s (hd NIL F) = R) by (rewrite (if_hd _ _ _ _ _ I); now apply (arc_src N p)).
  destruct F as [|q F]; [congruence|]. cbn [hd map tl] in *. rewrite E in Nd. apply NoDup_cons_iff in Nd. destruct Nd as [Nr Nd]. split; [now apply NoDup_rev|].
  intros x Hx. apply in_rev in Hx. assert (Hx0 := Hx). apply in_map_iff in Hx. destruct Hx as (e & <- & He). destruct (if_in _ _ _ _ _ I e (or_intror He)) as [I1 _]. apply in_vsof in I1. destruct I1 as [I1|I1]; [|auto]. rewrite I1 in Hx0. contradiction.
Qed.
Lemma Fls_in s R rs fls fl : Fls s R rs fls -> In fl fls -> exists r, In r rs /\ isfl s R r fl.
Proof. intros H. induction H as [|r f rs fls H1 H IH]; intros Hi; [destruct Hi|]. destruct Hi as [->|Hi]; [exists r; split; [now left|auto]|]. destruct (IH Hi) as (r' & I1 & I2). exists r'. split; [now right|auto]. Qed.
Lemma Om_facts s R fls : geob s -> isroot R -> Fls s R (tl (rot s R)) fls -> forall x, In x (concat fls) -> prim x /\ B s x = R.
Proof.
  intros G HR H x Hx. apply in_concat in Hx. destruct Hx as (fl & H1 & H2). destruct (Fls_in _ _ _ _ _ H H1) as (r & R1 & R2).
  apply (fl_facts s R r fl); auto. apply in_rot. destruct (rot s R); [destruct R1|now right].
Qed.

(** ** The vertices of a chain of components, as they are merged *)
Lemma comb_pref a fr : forall U2 V2 U V, comb a fr U2 V2 U V -> exists S S', V = V2 ++ S /\ U = S' ++ U2.
Proof.
  induction fr as [|[z R] fr IH]; intros U2 V2 U V K; cbn [PlV3.comb] in K.
  - destruct K as [-> ->]. exists [], []. now rewrite app_nil_r.
  - destruct K as (U1 & V1 & _ & K). destruct (IH _ _ _ _ K) as (S & S' & -> & ->). exists (z :: V1 ++ S), (S' ++ U1 ++ [z]). rewrite <- !app_assoc. auto.
Qed.

Section Chain.
Variables (a : est) (Root : Z).
Hypothesis G : geo NIL [] (eV a).
Hypotheses (HR : isroot Root) (NR : adj (eV a) Root <> []).
Local Notation s := (eV a).
Local Notation G0 := (g_base _ _ _ _ _ G).

Lemma lc_nr fr : lc a Root fr -> forall z R, In (z, R) fr -> isroot (B s z) /\ adj s (B s z) <> [] /\ prim z.
Proof.
  induction fr as [|[z R] fr IH]; intros H z' R' Hi; [destruct Hi|]. cbn [PlV3.lc] in H. destruct H as (H1 & H2 & H3 & H4 & H5 & H6 & H7).
  destruct Hi as [E|Hi]; [|now apply (IH H7 z' R')]. injection E as <- <-. rewrite H4. destruct fr as [|[z2 R2] fr]; cbn [map snd hd]; [auto|]. cbn [PlV3.lc] in H7. tauto.
Qed.
Definition apart (l : list Z) (Rs : list Z) : Prop := forall x, In x l -> ~ In (B s x) Rs.

Section Nc.
Variable Om : list Z.
Hypothesis HOm : forall x, In x Om -> B s x = Root.
Hypothesis Hb : forall L, Lw s Root L -> nc (L ++ rev Om).
Lemma comb_nc fr : forall U2 V2 U V, lc a Root fr -> comb a fr U2 V2 U V ->
  (if fr then nc (U2 ++ V2 ++ rev Om) else nc (U2 ++ V2) /\ apart (U2 ++ V2) (Root :: map snd (tl fr))) -> nc (U ++ V ++ rev Om).
Proof.
  induction fr as [|[z R] fr IH]; intros U2 V2 U V Lc K H; [destruct K as [-> ->]; auto|]. pose proof (lc_nr _ Lc z R (or_introl eq_refl)) as (Hz1 & Hz2 & Hz3).
  cbn [PlV3.comb] in K. destruct K as (U1 & V1 & LW & K). cbn [tl] in H. destruct H as [H1 H2]. cbn [PlV3.lc] in Lc. destruct Lc as (L1 & L2 & L3 & L4 & L5 & L6 & L7).
  destruct (Lw_facts _ _ _ G0 Hz1 Hz2 LW) as [Nd Hin]. apply (IH _ _ _ _ L7 K). assert (IB : In (B s z) (Root :: map snd fr)) by (rewrite L4; destruct fr as [|[z2 R2] fr]; cbn [map snd hd In]; auto).
  assert (Hd : forall x, In x (U2 ++ V2) -> x <> z /\ ~ In x U1 /\ ~ In x V1).
  { intros x Hx. specialize (H2 x Hx). assert (Q : forall y, In y (U1 ++ z :: V1) -> x <> y) by (intros y Hy ->; apply H2; destruct (Hin y Hy) as [_ ->]; auto).
    split; [apply Q, in_app_iff; right; now left|]. split; intros Q0; apply (Q x); auto; apply in_app_iff; [now left|right; now right]. }
  destruct fr as [|[z2 R2] fr].
  - replace ((U1 ++ z :: U2) ++ (V2 ++ z :: V1) ++ rev Om) with (U1 ++ z :: (U2 ++ V2) ++ z :: V1 ++ rev Om) by (rewrite <- ?app_assoc; cbn [app]; rewrite <- ?app_assoc; reflexivity).
    cbn [map hd] in *. rewrite L4 in LW. apply nc_ins; [specialize (Hb _ LW); rewrite <- app_assoc in Hb; exact Hb|auto|]. intros x Hx. destruct (Hd x Hx) as (D1 & D2 & D3). split; [auto|]. split; [auto|].
    intros Q. apply in_app_iff in Q. destruct Q as [Q|Q]; [auto|]. apply in_rev in Q. apply (H2 x Hx). left. symmetry. now apply HOm.
  - replace ((U1 ++ z :: U2) ++ (V2 ++ z :: V1)) with (U1 ++ z :: (U2 ++ V2) ++ z :: V1) by (rewrite <- ?app_assoc; cbn [app]; rewrite <- ?app_assoc; reflexivity). split.
    + apply nc_ins; [now apply nc_nodup|auto|auto].
    + cbn [tl map snd hd] in *. intros x Hx. assert (Hx' : In x (U2 ++ V2) \/ In x (U1 ++ z :: V1)).
      { rewrite !in_app_iff in *. cbn [In] in *. rewrite !in_app_iff in *. cbn [In] in Hx. tauto. }
      destruct Hx' as [Hx'|Hx'].
      * intros Q. apply (H2 x Hx'). destruct Q as [Q|Q]; [now left|right; now right].
      * destruct (Hin x Hx') as [_ ->]. rewrite L4. cbn [PlV3.lc] in L7. tauto.
Qed.
End Nc.

(** The two sides meet only where the walk left a component. *)
Lemma comb_meet fr FR : forall U2 V2 U V, lc a Root fr -> comb a fr U2 V2 U V -> (forall q, In q fr -> In q FR) -> (fr <> [] -> apart (U2 ++ V2) (Root :: map snd (tl fr))) ->
  (forall x, In x U2 -> In x V2 -> In x (map fst FR)) -> forall x, In x U -> In x V -> In x (map fst FR).
Proof.
  induction fr as [|[z R] fr IH]; intros U2 V2 U V Lc K HF Ap H; [destruct K as [-> ->]; auto|]. pose proof (lc_nr _ Lc z R (or_introl eq_refl)) as (Hz1 & Hz2 & Hz3). pose proof (HF _ (or_introl eq_refl)) as Fz.
  cbn [PlV3.comb] in K. destruct K as (U1 & V1 & LW & K). specialize (Ap ltac:(discriminate)). cbn [tl] in Ap. cbn [PlV3.lc] in Lc. destruct Lc as (L1 & L2 & L3 & L4 & L5 & L6 & L7).
  destruct (Lw_facts _ _ _ G0 Hz1 Hz2 LW) as [Nd Hin]. assert (IB : In (B s z) (Root :: map snd fr)) by (rewrite L4; destruct fr as [|[z2 R2] fr]; cbn [map snd hd In]; auto).
  assert (Dj : forall x, In x (U2 ++ V2) -> ~ In x (U1 ++ z :: V1)). { intros x H1 H2. apply (Ap x H1). destruct (Hin x H2) as [_ ->]. auto. }
  apply (IH _ _ _ _ L7 K).
  - intros q Hq. apply HF. now right.
  - intros Ne x Hx. assert (Hx' : In x (U2 ++ V2) \/ In x (U1 ++ z :: V1)). { rewrite !in_app_iff in *. cbn [In] in *. rewrite ?in_app_iff in *. cbn [In] in Hx. tauto. }
    destruct fr as [|[z2 R2] fr]; [congruence|]. cbn [tl map snd hd] in *. destruct Hx' as [Hx'|Hx'].
    + intros Q. apply (Ap x Hx'). destruct Q as [Q|Q]; [now left|right; now right].
    + destruct (Hin x Hx') as [_ ->]. rewrite L4. cbn [PlV3.lc] in L7. tauto.
  - intros x H1 H2. destruct (Z.eq_dec x z) as [->|Nz]; [apply in_map_iff; exists (z, R); auto|]. apply in_app_iff in H1, H2. cbn [In] in H1, H2. destruct H1 as [H1|[H1|H1]]; [|congruence|]; (destruct H2 as [H2|[H2|H2]]; [|congruence|]).
    + elim (Dj x); apply in_app_iff; auto.
    + exfalso. revert H1. intros H1. apply (NoDup_app_disj _ _ x Nd H1). now right.
    + auto.
    + elim (Dj x); apply in_app_iff; [auto|]. right. now right.
Qed.

(** The last component: its root is the root. *)
Lemma comb_bot fr : forall w U2 V2 U V, comb a fr U2 V2 U V -> (fr = [] -> exists V0, V2 = w :: V0 /\ Lw s Root (U2 ++ w :: V0)) -> lc a Root fr ->
  exists Ub Vb Uh Vh, Lw s Root (Ub ++ bot w fr :: Vb) /\ V = Vh ++ bot w fr :: Vb /\ U = Ub ++ Uh /\ (fr = [] -> Vh = [] /\ Uh = []).
Proof.
  induction fr as [|[z R] fr IH]; intros w U2 V2 U V K H Lc.
  - destruct K as [-> ->]. destruct (H eq_refl) as (V0 & -> & LW). exists U2, V0, [], []. cbn [bot]. rewrite app_nil_r. auto.
  - cbn [PlV3.comb] in K. destruct K as (U1 & V1 & LW & K). cbn [PlV3.lc] in Lc. destruct Lc as (L1 & L2 & L3 & L4 & L5 & L6 & L7). cbn [bot]. destruct fr as [|[z2 R2] fr].
    + destruct K as [-> ->]. cbn [map hd] in L4. rewrite L4 in LW. cbn [bot]. exists U1, V1, (z :: U2), V2. split; [auto|]. split; [auto|]. split; [auto|]. discriminate.
    + destruct (IH z _ _ _ _ K) as (Ub & Vb & Uh & Vh & I1 & I2 & I3 & I4); [discriminate|auto|]. exists Ub, Vb, Uh, Vh. split; [auto|]. split; [auto|]. split; [auto|]. discriminate.
Qed.
End Chain.

Section Chain2.
Variables (a : est) (c : Z) (P Q : list Z).
Hypothesis G : geo NIL [] (eV a).
Hypotheses (Pc : prim c) (NR : adj (eV a) (N + c) <> []).
Local Notation s := (eV a).
Local Notation G0 := (g_base _ _ _ _ _ G).
Local Notation HR := (c_root g0 c Pc).
Local Notation ch w fr := (chain a (N + c) w fr P Q).

(** What is before z on the merged face is below the child through which the walk left z. *)
Lemma comb_anc fr : forall w U2 V2 U V, prim w -> ch w fr -> comb a fr U2 V2 U V -> (forall z d r, fr = (z, N + d) :: r -> forall x, In x V2 -> prim x /\ anc d x) ->
  forall z d, In (z, N + d) fr -> exists La Lb, V = La ++ z :: Lb /\ forall x, In x La -> prim x /\ anc d x.
Proof.
  induction fr as [|[z R] fr IH]; intros w U2 V2 U V Pw Ch K H z' d' Hi; [destruct Hi|]. pose proof (chain_lc g0 kids St a _ _ _ c _ _ eq_refl HR Pc G _ w Pw Ch) as Lc.
  destruct (lc_nr a (N + c) HR NR _ Lc z R (or_introl eq_refl)) as (Hz1 & Hz2 & Hz3). destruct Ch as (C1 & (l & C2) & (d & D1 & D2 & D3 & D4) & C4). rewrite D1 in C1; subst R.
  cbn [PlV3.comb] in K. destruct K as (U1 & V1 & LW & K). pose proof (H z d fr eq_refl) as Hx. destruct (Lw_facts _ _ _ G0 Hz1 Hz2 LW) as [_ Hin]. destruct Hi as [E|Hi].
  - injection E as <- E. assert (d' = d) by lia. subst d'. destruct (comb_pref _ _ _ _ _ _ K) as (S & S' & -> & _). exists V2, (V1 ++ S). rewrite <- app_assoc. auto.
  - apply (IH z _ _ _ _ Hz3 C4 K); [|auto]. intros z2 d2 r2 -> x Hx2. destruct C4 as (B1 & _ & (d3 & E3 & A3 & P3 & _) & _). assert (d3 = d2) by lia. subst d3.
    apply in_app_iff in Hx2. assert (Az : anc d2 z) by (apply (B_anc g0 kids St _ _ _ _ _ G (proj1 A3) Hz3 B1)). destruct Hx2 as [Hx2|Hx2].
    + destruct (Hx x Hx2) as [X1 X2]. split; [auto|]. apply anc_trans with z; [auto|]. apply anc_trans with d; [|auto]. apply anc_step; [apply D2|]. rewrite D3. constructor.
    + destruct (Hin x) as [X1 X2]; [apply in_app_iff; now right|]. split; [auto|]. rewrite B1 in X2. apply (B_anc g0 kids St _ _ _ _ _ G (proj1 A3) X1 X2).
Qed.

(** The new face meets the new external face only where the walk left the components. *)
Section New.
Variables (W : Z) (FR : list (Z * Z)).
Definition newf (U V : list Z) : Prop := forall l1 a1 mid b1 l2 La Lm Lb, W :: rev U = l1 ++ a1 :: mid ++ b1 :: l2 -> (forall x, In x mid -> ~ In x V) -> V = La ++ a1 :: Lm ++ b1 :: Lb ->
  (a1 = W \/ exists d, In (a1, N + d) FR) /\ exists d Uc, In (b1, N + d) FR /\ Lw s (N + d) (Uc ++ a1 :: Lm) /\ exists l, X s (N + d) = a1 :: l.
Lemma comb_new fr : forall w U2 V2 U V, prim w -> ch w fr -> comb a fr U2 V2 U V -> (forall q, In q fr -> In q FR) -> (w = W \/ exists d, In (w, N + d) FR) ->
  (exists P1 P2 Uc Vc, V2 = P1 ++ w :: Vc /\ W :: rev U2 = P2 ++ w :: rev Uc /\ Lw s (B s w) (Uc ++ w :: Vc) /\ (forall x, In x Uc -> ~ In x V2)) -> NoDup V2 -> NoDup (W :: U2) ->
  (forall z R r, fr = (z, R) :: r -> apart a (W :: U2 ++ V2) (N + c :: map snd r)) -> newf U2 V2 -> newf U V.
Proof.
  induction fr as [|[z R] fr IH]; intros w U2 V2 U V Pw Ch K HF Hw T NdV NdU Ap Nf; [destruct K as [-> ->]; auto|]. pose proof (chain_lc g0 kids St a _ _ _ c _ _ eq_refl HR Pc G _ w Pw Ch) as Lc.
  destruct (lc_nr a (N + c) HR NR _ Lc z R (or_introl eq_refl)) as (Hz1 & Hz2 & Hz3). pose proof Lc as Lc'. cbn [PlV3.lc] in Lc'. destruct Lc' as (_ & _ & _ & L4 & L5 & _ & L7). destruct Ch as (C1 & (l & C2) & (d & D1 & D2 & D3 & D4) & C4). rewrite D1 in C1; subst R.
  cbn [PlV3.comb] in K. destruct K as (U1 & V1 & LW & K). destruct (Lw_facts _ _ _ G0 Hz1 Hz2 LW) as [NdL Hin]. specialize (Ap z _ _ eq_refl).
  assert (IB : In (B s z) (N + c :: map snd fr)) by (rewrite L4; destruct fr as [|[z2 R2] fr']; cbn [map snd hd In]; auto).
  assert (Dj : forall x, In x (W :: U2 ++ V2) -> ~ In x (U1 ++ z :: V1)). { intros x H1 H2. apply (Ap x H1). destruct (Hin x H2) as [_ ->]. auto. }
  assert (Iz : In z (U1 ++ z :: V1)) by (apply in_app_iff; right; now left).
  assert (NU1 : forall x, In x U1 -> ~ In x (V2 ++ z :: V1)).
  { intros x H1 H2. apply in_app_iff in H2. destruct H2 as [H2|H2].
    - apply (Dj x); [right; apply in_app_iff; auto|apply in_app_iff; auto].
    - revert H1 H2. apply (NoDup_app_disj _ _ x NdL). }
  apply (IH z _ _ _ _ Hz3 C4 K).
  - intros q Hq. apply HF. now right.
  - right. exists d. apply HF. now left.
  - exists V2, (W :: rev U2), U1, V1. split; [auto|]. split; [rewrite rev_app_distr; cbn [rev app]; now rewrite <- app_assoc|]. split; [auto|auto].
  - apply NoDup_app_intro; [auto|now apply NoDup_app_r in NdL|]. intros x H1 H2. apply (Dj x); [right; apply in_app_iff; auto|apply in_app_iff; auto].
  - assert (In W (W :: U2 ++ V2)) by now left. change (W :: U1 ++ z :: U2) with ([W] ++ (U1 ++ z :: U2)). apply NoDup_cons_iff in NdU. constructor.
    + intros Q0. apply in_app_iff in Q0. destruct Q0 as [Q0|[Q0|Q0]]; [| |tauto]; apply (Dj W H); apply in_app_iff; [auto|right; now left].
    + apply NoDup_app_intro; [now apply NoDup_app_l in NdL| |].
      * constructor; [|tauto]. intros Q0. apply (Dj z); [right; apply in_app_iff; auto|auto].
      * intros x H1 [<-|H2]; [revert H1; apply NoDup_mid in NdL; intros H1; apply (proj2 NdL); apply in_app_iff; auto|]. apply (Dj x); [right; apply in_app_iff; auto|apply in_app_iff; auto].
  - intros z2 R2 r2 -> x Hx. cbn [map snd] in *. assert (Hx' : In x (W :: U2 ++ V2) \/ In x (U1 ++ z :: V1)).
    { cbn [In] in *. rewrite !in_app_iff in *. cbn [In] in *. rewrite ?in_app_iff in *. cbn [In] in *. tauto. }
    destruct Hx' as [Hx'|Hx'].
    + intros Q0. apply (Ap x Hx'). destruct Q0 as [Q0|Q0]; [now left|right; now right].
    + destruct (Hin x Hx') as [_ ->]. rewrite L4. cbn [map snd hd]. cbn [PlV3.lc] in L7. tauto.
  - intros l1 a1 mid b1 l2 La Lm Lb Ew Hm Ev. rewrite rev_app_distr in Ew. cbn [rev] in Ew. rewrite <- app_assoc in Ew. cbn [app] in Ew.
    assert (Ew' : (W :: rev U2) ++ z :: rev U1 = (l1 ++ a1 :: mid) ++ b1 :: l2) by (rewrite <- app_assoc; exact Ew).
    assert (Ib : In b1 (V2 ++ z :: V1)) by (rewrite Ev; apply in_app_iff; right; right; apply in_app_iff; right; now left).
    assert (Ia : In a1 (V2 ++ z :: V1)) by (rewrite Ev; apply in_app_iff; right; now left).
    assert (NdV' : NoDup (V2 ++ z :: V1)).
    { apply NoDup_app_intro; [auto|now apply NoDup_app_r in NdL|]. intros x H1 H2. apply (Dj x); [right; apply in_app_iff; auto|apply in_app_iff; auto]. }
    destruct (split_or _ _ _ _ _ Ew') as [(D' & E1 & _)|(C' & E1 & E2)].
    + (* both before z *)
      assert (I1 : forall x, In x (W :: rev U2) -> In x (V2 ++ z :: V1) -> In x V2).
      { intros x H1 H2. apply in_app_iff in H2. destruct H2 as [|H2]; [auto|]. elim (Dj x); [destruct H1 as [<-|H1]; [now left|right; apply in_app_iff; left; now apply in_rev]|apply in_app_iff; auto]. }
      assert (Jb : In b1 V2) by (apply I1; [rewrite E1; apply in_app_iff; right; now left|auto]).
      assert (Ev2 : V2 ++ z :: V1 = (La ++ a1 :: Lm) ++ b1 :: Lb) by (rewrite <- app_assoc; exact Ev). destruct (split_or _ _ _ _ _ Ev2) as [(Lb' & F1 & F2)|(C' & F1 & F2)].
      2:{ exfalso. apply (NoDup_app_disj _ _ b1 NdV'); [auto|]. rewrite F1. apply in_app_iff. right. now left. }
      apply (Nf l1 a1 mid b1 D' La Lm Lb'); [rewrite E1, <- app_assoc; reflexivity| |rewrite F1, <- app_assoc; reflexivity]. intros x Hx Q0. apply (Hm x Hx). apply in_app_iff. auto.
    + (* b1 = z *)
      destruct C' as [|y C'].
      2:{ cbn [app] in E1. injection E1 as _ E1. elim (NU1 b1); [|auto]. apply in_rev. rewrite E1. apply in_app_iff. right. now left. }
      cbn [app] in E1. injection E1 as E1 El2. subst b1. rewrite app_nil_r in E2.
      assert (Ev2 : V2 ++ z :: V1 = (La ++ a1 :: Lm) ++ z :: Lb) by (rewrite <- app_assoc; exact Ev). destruct (split_uniq _ _ _ _ _ NdV' Ev2) as [F1 F2].
      destruct T as (P1 & P2 & Uc & Vc & T1 & T2 & T3 & T4).
      (* a1 = w *)
      assert (Ea : a1 = w).
      { destruct (Z.eq_dec a1 w) as [|Ne]; [auto|exfalso]. rewrite T2 in E2. symmetry in E2. destruct (split_or _ _ _ _ _ E2) as [(D' & G1 & G2)|(C' & G1 & G2)].
        - apply (Hm w); [rewrite G2; apply in_app_iff; right; now left|]. apply in_app_iff. left. rewrite T1. apply in_app_iff. right. now left.
        - destruct C' as [|y C']; cbn [app] in G1; injection G1 as G1 G3; [congruence|]. apply (T4 a1); [apply in_rev; rewrite G3; apply in_app_iff; right; now left|]. rewrite F1. apply in_app_iff. right. now left. }
      subst a1. split; [auto|]. rewrite T1 in F1, NdV. destruct (split_uniq _ _ _ _ _ NdV F1) as [F3 F4]. exists d, Uc. split; [apply HF; now left|]. rewrite <- F4, <- C1. split; [auto|]. rewrite C1. eauto.
Qed.
End New.
End Chain2.
End PI.
