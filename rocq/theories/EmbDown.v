(** * EmbDown: the invariant of the walk down, and embedding one edge. *)
From Coq Require Import ZifyBool Permutation Sorted.
From Verif Require Import Base BaseP GraphRec GraphM GraphSpec GSimp LinkP GraphP GraphP2 ListM ListSpec ListP DFSM DFSSpec DFSP TestP EmbM EmbSpec EmbP FaceP GeoP GeoP2 EmbInv EmbStep EmbTree EmbWalk EmbFan EmbUp EmbJoin PlV PlV2 PlV3.

Section Down.
Variables (g0 : graph) (kids : Z -> list Z).
Hypothesis St : static g0 kids.
Local Notation N := (gN g0).
Local Notation p := (viParent (gVI g0)).
Local Notation prim := (prim (gN g0)).
Local Notation isroot := (isroot (gN g0)).
Local Notation geo := (geo (gN g0) (viParent (gVI g0))).
Local Notation anc := (ancestor (viParent (gVI g0))).
Local Notation via := (via g0).
Local Notation act := (act g0).
Local Notation fsim := (fsim g0).
Local Notation rp := (rp g0).
Local Notation HP := (Hp g0 kids St).
Local Notation vsof := (vsof (gN g0)).
Local Notation jrel := (jrel g0 kids).
Local Notation chain := (chain g0).
Local Notation pof := (pof g0).

(** ** The same edges *)
Definition arc (a : est) (e : Z) : Prop := (exists x, In e (adj (eV a) x)) \/ (exists u, In e (fw a u) \/ In (twin e) (fw a u)).
Record sedge (a b : est) : Prop := {
  se_arc : forall e, arc b e <-> arc a e; se_nb : forall e, pof (nb (eV b) e) = pof (nb (eV a) e);
  se_fl : forall e, Z.land (fl (eV b) e) EDGE_TYPE_MASK = Z.land (fl (eV a) e) EDGE_TYPE_MASK;
  se_out : forall e, ~ arc a e -> ~ arc a (twin e) -> nb (eV b) e = nb (eV a) e }.
Lemma sedge_refl a : sedge a a.
Proof. constructor; tauto. Qed.
Lemma sedge_trans a b c : sedge a b -> sedge b c -> sedge a c.
Proof.
  intros [] []. constructor; [intros; now rewrite se_arc1|congruence|congruence|]. intros e H1 H2.
  rewrite se_out1; [now apply se_out0|rewrite se_arc0; auto|rewrite se_arc0; auto].
Qed.

(** Asked for an outerplanar embedding, no vertex leaves the external face of its component, and
    every component is a cycle with non-crossing chords.  The external face of each component is a
    closed face walk in which no vertex is repeated. *)
Definition outer (s : gv) : Prop := (opl g0 = true -> (forall y, prim y -> p y <> NIL -> In y (X s (B s y))) /\ fans g0 s) /\ ofx g0 NIL s.
Lemma fsim_out1 s t : (forall y, prim y -> p y <> NIL -> In y (X s (B s y))) -> fsim s t -> forall y, prim y -> p y <> NIL -> In y (X t (B t y)).
Proof. intros O S y Py Ny. rewrite (fs_B _ _ S). apply (fsim_in _ _ _ _ S). now apply O. Qed.
Lemma fsim_outer s t : geo NIL [] s -> outer s -> fsim s t -> outer t.
Proof.
  intros G [O Ox] S. split; [|now apply (ofx_sim g0 NIL s)]. intros Eo. destruct (O Eo) as [O1 O2]. split; [now apply (fsim_out1 s t)|now apply (fans_sim g0 kids St s t)].
Qed.
(** The walk up has recorded every forward arc of v and the components on the way to it. *)
Definition compl (v : Z) (a : est) : Prop := forall f, In f (fw a v) -> pe a (nb (eV a) f) = f /\ recd g0 v a (nb (eV a) f).
Record dinv (v c : Z) (a : est) : Prop := {
  d_geo : geo NIL [] (eV a); d_fw : fwok g0 a; d_fpc : fpcok g0 kids v a; d_pe : peok v a; d_prl : prlok g0 v a;
  d_prlv : prl a v = []; d_act : actok g0 v c a; d_keep : keep g0 v a; d_out : outer (eV a); d_comp : compl v a }.
(** What a walk down below the child c of v may change. *)
Record drel (v c : Z) (a b : est) : Prop := {
  dr_fw : forall u, u <> v -> fw b u = fw a u; dr_fwv : forall f, In f (fw b v) -> In f (fw a v);
  dr_nb : forall u f, In f (fw b u) -> nb (eV b) f = nb (eV a) f;
  dr_prl : forall x d, In d (prl a x) -> ~ anc c x -> In d (prl b x); dr_prl' : forall x d, In d (prl b x) -> In d (prl a x);
  dr_vis : vis b = vis a; dr_act : forall d, act (eV b) d -> act (eV a) d; dr_edge : sedge a b }.
Lemma drel_refl v c a : drel v c a a.
Proof. constructor; auto. apply sedge_refl. Qed.
Lemma drel_fwin v c a b u f : drel v c a b -> In f (fw b u) -> In f (fw a u).
Proof. intros D Hf. destruct (Z.eq_dec u v) as [->|Ne]; [now apply (dr_fwv _ _ _ _ D)|now rewrite <- (dr_fw _ _ _ _ D)]. Qed.
Lemma drel_trans v c a b d : drel v c a b -> drel v c b d -> drel v c a d.
Proof.
  intros D E. constructor.
  - intros u Hu. now rewrite (dr_fw _ _ _ _ E), (dr_fw _ _ _ _ D).
  - intros f Hf. apply (dr_fwv _ _ _ _ D). now apply (dr_fwv _ _ _ _ E).
  - intros u f Hf. rewrite (dr_nb _ _ _ _ E u f Hf). apply (dr_nb _ _ _ _ D u). apply (drel_fwin _ _ _ _ _ _ E Hf).
  - intros x y H1 H2. apply (dr_prl _ _ _ _ E); auto. now apply (dr_prl _ _ _ _ D).
  - intros x y H. apply (dr_prl' _ _ _ _ D). now apply (dr_prl' _ _ _ _ E).
  - now rewrite (dr_vis _ _ _ _ E), (dr_vis _ _ _ _ D).
  - intros y H. apply (dr_act _ _ _ _ D). now apply (dr_act _ _ _ _ E).
  - eapply sedge_trans; [apply D|apply E].
Qed.

(** ** The chain of a descent *)
Fixpoint bot (W : Z) (fr : list (Z * Z)) : Z := match fr with [] => W | (z, _) :: r => bot z r end.
Lemma chain_bot a Root P Q fr : forall W, chain a Root W fr P Q -> B (eV a) (bot W fr) = Root /\ X (eV a) Root = P ++ bot W fr :: Q.
Proof. induction fr as [|[z R] fr IH]; intros W C; [exact C|]. cbn [bot]. apply IH. apply C. Qed.
Lemma B_anc C xs s c z : geo C xs s -> prim c -> prim z -> B s z = N + c -> anc c z /\ p z <> NIL.
Proof.
  intros G Pc Pz E. assert (Hn : p z <> NIL). { intros En. destruct (g_B0 _ _ _ (g_base _ _ _ _ _ G) z Pz En) as [Q _]. unfold GeoP.prim, NIL in *. lia. }
  destruct (B_act g0 kids St _ _ _ _ G Pz Hn) as (c' & E' & _ & A). assert (c' = c) by lia. subst. auto.
Qed.
Lemma chain_in a C xs Root c P Q fr : geo C xs (eV a) -> Root = N + c -> prim c -> forall W, prim W -> chain a Root W fr P Q ->
  anc c W /\ p W <> NIL /\ (forall z R, In (z, R) fr -> exists d, R = N + d /\ act (eV a) d /\ p d = z /\ In d (prl a z) /\ anc c z /\ prim z).
Proof.
  intros G ER Pc. induction fr as [|[z R] fr IH]; intros W PW Ch.
  - destruct Ch as [C1 _]. rewrite ER in C1. destruct (B_anc _ _ _ _ _ G Pc PW C1) as [A1 A2]. split; [auto|]. split; [auto|]. intros z R [].
  - destruct Ch as (C1 & (l & C2) & (d & D1 & D2 & D3 & D4) & C4). destruct D2 as (A1 & A2 & A3). destruct (Hp g0 kids St d A1 A2) as [Pz Lz]. rewrite D3 in Pz, Lz.
    destruct (IH z Pz C4) as (I1 & I2 & I3). rewrite D1 in C1. destruct (B_anc _ _ _ _ _ G A1 PW C1) as [K1 K2]. split; [|split; [auto|]].
    + eapply anc_trans; [|exact K1]. apply anc_step; [auto|]. now rewrite D3.
    + intros z' R' [E|E]; [inversion E; subst z' R'|now apply I3]. exists d. split; [auto|]. split; [split; auto|]. auto.
Qed.
Lemma jx_in s W fr Q x : In x (jx s W fr Q) <-> (exists R, In R (map snd fr) /\ In x (X s R)) \/ In x (bot W fr :: Q).
Proof.
  revert W. induction fr as [|[z R] fr IH]; intros W.
  - cbn [jx map bot]. split; [auto|]. intros [(R & [] & _)|]; auto.
  - cbn [jx map bot snd]. rewrite in_app_iff, IH. split.
    + intros [H|[(R' & H1 & H2)|H]]; [left; exists R; split; [now left|auto]|left; exists R'; split; [now right|auto]|auto].
    + intros [(R' & [<-|H1] & H2)|H]; [auto|right; left; eauto|auto].
Qed.
Lemma jx_last s W fr Q : last (jx s W fr Q) NIL = last (bot W fr :: Q) NIL.
Proof.
  revert W. induction fr as [|[z R] fr IH]; intros W; [reflexivity|]. cbn [jx bot]. rewrite last_app_ne; [apply IH|]. destruct fr as [|[z' R'] fr]; cbn [jx]; [discriminate|].
  intros E. apply app_eq_nil in E. destruct E as [_ E]. specialize (IH z). cbn [jx] in IH. clear IH. revert E. generalize z'. induction fr as [|[z2 R2] fr IH2]; intros z3 E; [discriminate|].
  cbn [jx] in E. apply app_eq_nil in E. destruct E as [_ E]. apply (IH2 z2 E).
Qed.
Lemma jx_hd a Root W fr P Q : chain a Root W fr P Q -> exists l, jx (eV a) W fr Q = W :: l /\ (fr <> [] -> l <> []) /\ (fr = [] -> l = Q).
Proof.
  destruct fr as [|[z R] fr]; cbn [chain jx].
  - intros _. exists Q. split; [auto|]. split; [congruence|auto].
  - intros (_ & (l & ->) & _). exists (l ++ jx (eV a) z fr Q). split; [reflexivity|]. split; [|discriminate]. intros _ E. apply app_eq_nil in E. destruct E as [_ E].
    revert E. generalize z. induction fr as [|[z2 R2] fr IH]; intros z3 E; [discriminate|]. cbn [jx] in E. apply app_eq_nil in E. destruct E as [_ E]. apply (IH z2 E).
Qed.

(** What merging along the descent and embedding the edge to W change. *)
Record emrel (c : Z) (a b : est) (W : Z) (fr : list (Z * Z)) (Q : list Z) : Prop := {
  em_act : forall d, act (eV b) d <-> act (eV a) d /\ ~ In (N + d) (map snd fr);
  em_X : forall R, X (eV b) R = if R =? N + c then jx (eV a) W fr Q else X (eV a) R;
  em_B : forall z, B (eV b) z = if inb (B (eV a) z) (map snd fr) then N + c else B (eV a) z;
  em_fw : forall u f, In f (fw b u) <-> In f (fw a u) /\ f <> pe a W;
  em_prl : forall x d, In d (prl b x) <-> In d (prl a x) /\ ~ In (N + d) (map snd fr);
  em_ord : forall (R : Z -> Z -> Prop) x, StronglySorted R (prl a x) -> StronglySorted R (prl b x);
  em_pe : pe b = upd (pe a) W NIL;
  em_nbr : forall x y, In y (nbrs (eV a) x) -> In (rt g0 (map snd fr) y) (nbrs (eV b) (rt g0 (map snd fr) x)) }.

(** ** Future pertinence *)
Definition nfp (v : Z) (a : est) (x : Z) : Prop :=
  opl g0 = false /\ v <= viLeast (gVI g0) x /\ forall d, act (eV a) d -> p d = x -> v <= viLow (gVI g0) d.
Definition passed (v : Z) (a : est) (P : list Z) : Prop := forall x, In x P -> pe a x = NIL /\ nfp v a x.

(** Dropping passed vertices from the external face keeps everything needed later. *)
Lemma keep_step v a b P : fwok g0 a -> keep g0 v a -> passed v a P -> (forall u f, u < v -> In f (fw b u) -> In f (fw a u) /\ nb (eV b) f = nb (eV a) f) ->
  (forall d, act (eV b) d -> act (eV a) d) ->
  (forall y, In y (X (eV a) (B (eV a) y)) -> ~ In y P -> In y (X (eV b) (B (eV b) y))) -> keep g0 v b.
Proof.
  intros F K HP Hf Ha Hx u f Hu Hi. destruct (Hf u f Hu Hi) as [Hi' En]. destruct (K u f Hu Hi') as [K1 K2]. rewrite En. split.
  - apply Hx; auto. intros HI. destruct (HP _ HI) as (_ & _ & N1 & _). pose proof (fo_la _ _ F u f Hi'). lia.
  - intros c Hc Hanc Hl. apply Hx; [apply K2; auto|]. intros HI. destruct (HP _ HI) as (_ & _ & _ & N2). pose proof (N2 c (Ha c Hc) eq_refl).
    pose proof (fo_lp _ _ F u f c Hi' (proj1 (Ha c Hc)) Hanc). lia.
Qed.

Lemma outer_step v a b P : outer (eV a) -> passed v a P -> (opl g0 = true -> fans g0 (eV b)) -> ofx g0 NIL (eV b) ->
  (forall y, In y (X (eV a) (B (eV a) y)) -> ~ In y P -> In y (X (eV b) (B (eV b) y))) -> outer (eV b).
Proof. intros [O _] HP Hf Ox Hx. split; [|auto]. intros Eo. split; [|auto]. intros y Py Ny. apply Hx; [now apply O|]. intros HI. destruct (HP _ HI) as (_ & Q & _). congruence. Qed.
Lemma passed_opl v a P : opl g0 = true -> passed v a P -> P = [].
Proof. intros Eo HP. destruct P as [|x P]; [auto|]. destruct (HP x (or_introl eq_refl)) as (_ & Q & _). congruence. Qed.

(** ** The measure *)
Definition zr := zrange 1 (Z.to_nat N).
Definition actb (s : gv) (d : Z) : bool := negb (p d =? NIL) && negb (isnil (adj s (N + d))).
Lemma actb_true s d : prim d -> actb s d = true <-> act s d.
Proof.
  intros Hd. unfold actb, EmbTree.act. rewrite andb_true_iff, !negb_true_iff, Z.eqb_neq. destruct (adj s (N + d)); cbn [isnil]; intuition discriminate.
Qed.
Definition mu (a : est) (Root : Z) (fr : list (Z * Z)) (L : list Z) : nat :=
  Nat.add (length (filter (fun d => actb (eV a) d && negb (inb (N + d) (map snd fr))) zr)) (length (filter (fun z => negb (B (eV a) z =? Root) || inb z L) zr)).
Lemma zr_prim x : In x zr <-> prim x.
Proof. unfold zr, GeoP.prim. rewrite in_zrange. lia. Qed.
Lemma mu_le a b Root fr fr' L L' :
  (forall d, act (eV b) d -> ~ In (N + d) (map snd fr') -> act (eV a) d /\ ~ In (N + d) (map snd fr)) ->
  (forall z, prim z -> B (eV b) z <> Root \/ In z L' -> B (eV a) z <> Root \/ In z L) -> (mu b Root fr' L' <= mu a Root fr L)%nat.
Proof.
  intros H1 H2. unfold mu. apply Nat.add_le_mono; apply filter_le; intros x Hx; apply zr_prim in Hx.
  - rewrite !andb_true_iff, !negb_true_iff, !actb_true by auto. intros [A1 A2]. destruct (H1 x A1) as [A3 A4].
    + intros Q. apply inb_true in Q. congruence.
    + split; [auto|]. destruct (inb_spec (N + x) (map snd fr)); [contradiction|auto].
  - rewrite !orb_true_iff, !negb_true_iff, !Z.eqb_neq, !inb_true. auto.
Qed.
Lemma mu_act a b Root fr fr' L d : (forall x, act (eV b) x <-> act (eV a) x) -> B (eV b) = B (eV a) -> act (eV a) d -> ~ In (N + d) (map snd fr) ->
  (forall R, In R (map snd fr') <-> R = N + d \/ In R (map snd fr)) -> (mu b Root fr' L < mu a Root fr L)%nat.
Proof.
  intros Ha Hb Hd Nd Hf. unfold mu. rewrite Hb. apply Nat.add_lt_mono_r. apply filter_lt with d.
  - intros x Hx. apply zr_prim in Hx. rewrite !andb_true_iff, !negb_true_iff, !actb_true by auto. rewrite Ha. intros [A1 A2]. split; [auto|].
    destruct (inb_spec (N + x) (map snd fr)) as [I|]; [|auto]. assert (In (N + x) (map snd fr')) by (apply Hf; auto). apply inb_true in H. congruence.
  - apply zr_prim. apply Hd.
  - apply andb_false_iff. right. apply negb_false_iff. apply inb_true. apply Hf. auto.
  - rewrite andb_true_iff, negb_true_iff, actb_true by apply Hd. split; [auto|]. destruct (inb_spec (N + d) (map snd fr)); [contradiction|auto].
Qed.
Lemma mu_pass a b Root W Q : (forall x, act (eV b) x <-> act (eV a) x) -> B (eV b) = B (eV a) -> prim W -> B (eV a) W = Root -> ~ In W Q -> (mu b Root [] Q < mu a Root [] (W :: Q))%nat.
Proof.
  intros Ha Hb PW BW NW. unfold mu. rewrite Hb. apply Nat.add_le_lt_mono.
  - apply filter_le. intros x Hx. apply zr_prim in Hx. rewrite !andb_true_iff, !actb_true by auto. rewrite Ha. auto.
  - apply filter_lt with W.
    + intros x Hx. rewrite !orb_true_iff, !inb_true. cbn [In]. tauto.
    + now apply zr_prim.
    + rewrite BW, Z.eqb_refl. cbn [negb orb]. destruct (inb_spec W Q); [contradiction|auto].
    + apply orb_true_iff. right. apply inb_true. now left.
Qed.
Lemma mu_bound a Root fr L : (mu a Root fr L <= 2 * Z.to_nat N)%nat.
Proof.
  unfold mu. assert (L0 : forall (h : Z -> bool), (length (filter h zr) <= Z.to_nat N)%nat).
  { intros h. transitivity (length zr); [|unfold zr; rewrite zrange_length; lia]. generalize zr. intros l. induction l as [|x l IH]; cbn [filter length]; [auto|]. destruct (h x); cbn [length]; lia. }
  pose proof (L0 (fun d => actb (eV a) d && negb (inb (N + d) (map snd fr)))). pose proof (L0 (fun z => negb (B (eV a) z =? Root) || inb z L)). lia.
Qed.
End Down.
