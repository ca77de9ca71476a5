(** * EmbJoin: merging the components on the stack. *)
From Coq Require Import ZifyBool Permutation Sorted.
From Verif Require Import Base BaseP GraphRec GraphM GraphSpec GSimp LinkP GraphP GraphP2 ListM ListSpec ListP DFSM DFSSpec DFSP TestP EmbM EmbSpec EmbP FaceP GeoP GeoP2 EmbInv EmbStep EmbTree EmbWalk EmbFan.

Section Join.
Variables (g0 : graph) (kids : Z -> list Z).
Hypothesis St : static g0 kids.
Local Notation N := (gN g0).
Local Notation p := (viParent (gVI g0)).
Local Notation prim := (prim (gN g0)).
Local Notation isroot := (isroot (gN g0)).
Local Notation geo := (geo (gN g0) (viParent (gVI g0))).
Local Notation anc := (ancestor (viParent (gVI g0))).
Local Notation via := (via g0).
Local Notation act := (act g0).
Local Notation rp := (rp g0).
Local Notation HP := (Hp g0 kids St).
Local Notation vsof := (vsof (gN g0)).

Lemma inb_true x l : inb x l = true <-> In x l.
Proof. destruct (inb_spec x l); split; auto; discriminate. Qed.

(** The vertex a primary or virtual vertex stands for. *)
Definition pof (x : Z) : Z := if x <=? N then x else p (x - N).

(** The vertex that takes the place of x when the components with roots [Rs] are merged. *)
Definition rt (Rs : list Z) (x : Z) : Z := if inb x Rs then p (x - N) else x.
(** The effect of merging the components with roots [Rs] into the component of [C]. *)
Record jrel (a b : est) (Rs : list Z) (C : Z) : Prop := {
  j_fw : fw b = fw a; j_pe : pe b = pe a; j_vis : vis b = vis a; j_o : o (eV b) = o (eV a); j_X : X (eV b) = X (eV a);
  j_prl : forall x d, In d (prl b x) <-> In d (prl a x) /\ ~ In (N + d) Rs;
  j_ord : forall (R : Z -> Z -> Prop) x, StronglySorted R (prl a x) -> StronglySorted R (prl b x);
  j_fpc : forall x l1 l2, kids x = l1 ++ l2 -> fpc a x = hd NIL l2 ->
    exists m1 m2, l2 = m1 ++ m2 /\ fpc b x = hd NIL m2 /\ forall c, In c m1 -> In (N + c) Rs;
  j_B : forall z, B (eV b) z = if inb (B (eV a) z) Rs then C else B (eV a) z;
  j_nb1 : forall e, pof (nb (eV b) e) = pof (nb (eV a) e);
  j_nb2 : forall e, (forall x, ~ In (twin e) (adj (eV a) x)) -> nb (eV b) e = nb (eV a) e;
  j_fl : forall e, Z.land (fl (eV b) e) EDGE_TYPE_MASK = Z.land (fl (eV a) e) EDGE_TYPE_MASK;
  j_act : forall d, prim d -> adj (eV b) (N + d) = [] <-> adj (eV a) (N + d) = [] \/ In (N + d) Rs;
  j_arc : forall e, (exists x, In e (adj (eV b) x)) <-> (exists x, In e (adj (eV a) x));
  j_nbr : forall x y, In y (nbrs (eV a) x) -> In (rt Rs y) (nbrs (eV b) (rt Rs x)) }.

Lemma jrel_act a b Rs C d : jrel a b Rs C -> act (eV b) d <-> act (eV a) d /\ ~ In (N + d) Rs.
Proof.
  intros J. unfold EmbTree.act. split.
  - intros (H1 & H2 & H3). rewrite (j_act _ _ _ _ J d H1) in H3. tauto.
  - intros ((H1 & H2 & H3) & H4). rewrite (j_act _ _ _ _ J d H1). tauto.
Qed.

Lemma ss_remove (R : Z -> Z -> Prop) y l : StronglySorted R l -> StronglySorted R (remove Z.eq_dec y l).
Proof.
  induction 1 as [|x l S IH F]; cbn [remove]; [constructor|]. destruct (Z.eq_dec y x); [auto|]. constructor; [auto|]. rewrite Forall_forall in *. intros z Hz. apply in_remove in Hz. apply F. tauto.
Qed.
Lemma jrel_one a b R xs C' Z0 c : geo R xs (eV a) -> merge_rel g0 kids a b R C' Z0 -> R = N + c -> prim c -> p c = Z0 -> prim Z0 -> In c (kids Z0) -> NoDup (kids Z0) ->
  (forall x d, In d (prl a x) -> p d = x) -> (forall x y d, In d (kids x) -> In d (kids y) -> x = y) -> jrel a b [R] C'.
Proof.
  intros G M Ec Pc Ep PZ Hk Nk Hprl Hku. pose proof (g_base _ _ _ _ _ G) as G0. constructor; try (apply M).
  - intros x d. rewrite (mr_prl _ _ _ _ _ _ _ M). replace (R - N) with c by lia. destruct (Z.eqb_spec x Z0) as [->|Ne].
    + split.
      * intros Hd. apply in_remove in Hd. destruct Hd as [H1 H2]. split; [auto|]. intros [Q|[]]. lia.
      * intros [H1 H2]. apply in_in_remove; auto. intros ->. apply H2. left. lia.
    + split; [|tauto]. intros Hd. split; [auto|]. intros [Q|[]]. assert (d = c) by lia. subst d. apply Hprl in Hd. congruence.
  - intros T x Hs. rewrite (mr_prl _ _ _ _ _ _ _ M). destruct (Z.eqb_spec x Z0) as [->|]; [now apply ss_remove|auto].
  - intros x l1 l2 E F. destruct (mr_fpc _ _ _ _ _ _ _ M x) as [E2|(-> & E2 & E3)].
    + exists [], l2. rewrite E2. split; [auto|]. split; [auto|]. intros c0 [].
    + replace (R - N) with c in * by lia. destruct l2 as [|y l2].
      * cbn [hd] in F. unfold GeoP.prim, NIL in *. lia.
      * cbn [hd] in F. assert (y = c) as -> by congruence. exists [c], l2. split; [auto|]. split; [apply (E3 l1 l2 E)|]. intros y [<-|[]]. left. auto.
  - intros z. rewrite (mr_B _ _ _ _ _ _ _ M). cbn [inb existsb]. rewrite orb_false_r. reflexivity.
  - intros e. rewrite (mr_nb _ _ _ _ _ _ _ M). destruct (inb (twin e) (adj (eV a) R)) eqn:E; [|auto]. apply inb_true in E.
    destruct (g_twins _ _ _ G0 _ _ E) as [T _]. rewrite twin_invol in T. rewrite T. unfold pof, GeoP.prim in *. replace (Z0 <=? N) with true by lia.
    replace (R <=? N) with false by lia. replace (R - N) with c by lia. auto.
  - intros e He. rewrite (mr_nb _ _ _ _ _ _ _ M). destruct (inb (twin e) (adj (eV a) R)) eqn:E; [|auto]. apply inb_true in E. destruct (He _ E).
  - intros d Hd. cbn [In]. destruct (Z.eq_dec (N + d) R) as [E|Ne].
    + rewrite E, (mr_adjR _ _ _ _ _ _ _ M). split; auto.
    + rewrite (mr_adj _ _ _ _ _ _ _ M) by (unfold GeoP.prim in *; lia). split; [auto|]. intros [|[Q|[]]]; [auto|congruence].
  - intros e. split; intros (x & Hx).
    + destruct (Z.eq_dec x Z0) as [->|N1]; [apply (mr_adjZ _ _ _ _ _ _ _ M) in Hx; destruct Hx; eauto|].
      destruct (Z.eq_dec x R) as [->|N2]; [rewrite (mr_adjR _ _ _ _ _ _ _ M) in Hx; destruct Hx|]. rewrite (mr_adj _ _ _ _ _ _ _ M) in Hx by auto. eauto.
    + destruct (Z.eq_dec x Z0) as [->|N1]; [exists Z0; apply (mr_adjZ _ _ _ _ _ _ _ M); auto|].
      destruct (Z.eq_dec x R) as [->|N2]; [exists Z0; apply (mr_adjZ _ _ _ _ _ _ _ M); auto|]. exists x. now rewrite (mr_adj _ _ _ _ _ _ _ M) by auto.
  - assert (Er : forall x, rt [R] x = ren R Z0 x).
    { intros x. unfold rt, ren. cbn [inb existsb]. rewrite orb_false_r. destruct (Z.eqb_spec x R) as [->|]; [|auto]. now replace (R - N) with c by lia. }
    destruct (merge_nbrs g0 kids a b R C' Z0 G0 M) as [M1 M2]. intros x y Hy. rewrite !Er. unfold ren at 2. destruct (Z.eqb_spec x R) as [->|N2].
    + rewrite M2. apply in_app_iff. right. now apply in_map.
    + destruct (Z.eq_dec x Z0) as [->|N1]; [rewrite M2; apply in_app_iff; left; now apply in_map|]. rewrite M1 by auto. now apply in_map.
Qed.

Lemma jrel_trans a b c R C' Rs C : jrel a b [R] C' -> jrel b c Rs C -> C' = C \/ In C' Rs -> ~ In R Rs -> ~ In (p (R - N)) Rs -> jrel a c (R :: Rs) C.
Proof.
  intros J K HC HR HZ. constructor.
  - now rewrite (j_fw _ _ _ _ K), (j_fw _ _ _ _ J).
  - now rewrite (j_pe _ _ _ _ K), (j_pe _ _ _ _ J).
  - now rewrite (j_vis _ _ _ _ K), (j_vis _ _ _ _ J).
  - now rewrite (j_o _ _ _ _ K), (j_o _ _ _ _ J).
  - now rewrite (j_X _ _ _ _ K), (j_X _ _ _ _ J).
  - intros x d. rewrite (j_prl _ _ _ _ K), (j_prl _ _ _ _ J). cbn [In]. tauto.
  - intros T x Hs. apply (j_ord _ _ _ _ K), (j_ord _ _ _ _ J). exact Hs.
  - intros x l1 l2 E F. destruct (j_fpc _ _ _ _ J x l1 l2 E F) as (m1 & m2 & E1 & F1 & H1).
    destruct (j_fpc _ _ _ _ K x (l1 ++ m1) m2) as (k1 & k2 & E2 & F2 & H2); [rewrite <- app_assoc, <- E1; auto|auto|].
    exists (m1 ++ k1), k2. split; [rewrite <- app_assoc, <- E2; auto|]. split; [auto|]. intros y Hy. apply in_app_iff in Hy. cbn [In].
    destruct Hy as [Hy|Hy]; [destruct (H1 y Hy) as [|[]]; auto|right; auto].
  - intros z. rewrite (j_B _ _ _ _ K), (j_B _ _ _ _ J). cbn [inb existsb]. rewrite orb_false_r. fold (inb (B (eV a) z) Rs).
    destruct (Z.eqb_spec (B (eV a) z) R) as [E|E]; cbn [orb]; [|reflexivity]. destruct HC as [->|HC]; [now destruct (inb C Rs)|]. apply inb_true in HC. now rewrite HC.
  - intros e. now rewrite (j_nb1 _ _ _ _ K), (j_nb1 _ _ _ _ J).
  - intros e He. rewrite (j_nb2 _ _ _ _ K); [now apply (j_nb2 _ _ _ _ J)|]. intros x Hx.
    destruct (proj1 (j_arc _ _ _ _ J (twin e)) (ex_intro _ x Hx)) as [y Hy]. apply (He y Hy).
  - intros e. now rewrite (j_fl _ _ _ _ K), (j_fl _ _ _ _ J).
  - intros d Hd. rewrite (j_act _ _ _ _ K d Hd), (j_act _ _ _ _ J d Hd). cbn [In]. tauto.
  - intros e. rewrite (j_arc _ _ _ _ K), (j_arc _ _ _ _ J). tauto.
  - assert (Er : forall x, rt (R :: Rs) x = rt Rs (rt [R] x)).
    { intros x. unfold rt. cbn [inb existsb]. rewrite orb_false_r. fold (inb x Rs). destruct (Z.eqb_spec x R) as [->|]; cbn [orb]; [|reflexivity]. fold (inb (p (R - N)) Rs). destruct (inb_spec (p (R - N)) Rs); [contradiction|reflexivity]. }
    intros x y Hy. rewrite !Er. apply (j_nbr _ _ _ _ K), (j_nbr _ _ _ _ J), Hy.
Qed.

(** ** The stack of a descent *)
Fixpoint enc (s : gv) (fr : list (Z * Z)) : list Z :=
  match fr with [] => [] | (z, R) :: r => b2z (o s R) :: R :: b2z (negb (o s z)) :: z :: enc s r end.
Lemma enc_length s fr : length (enc s fr) = (4 * length fr)%nat.
Proof. induction fr as [|[z R] fr IH]; [reflexivity|]. cbn [enc length]. lia. Qed.
Lemma enc_ext s t fr : (forall z R, In (z, R) fr -> o t z = o s z /\ o t R = o s R) -> enc t fr = enc s fr.
Proof.
  induction fr as [|[z R] fr IH]; intros H; [reflexivity|]. cbn [enc]. destruct (H z R (or_introl eq_refl)) as [-> ->]. rewrite IH; [reflexivity|]. intros; apply H; now right.
Qed.
(** W is reached from Root by descending through the frames; P are the vertices passed on Root's own component. *)
Fixpoint chain (a : est) (Root W : Z) (fr : list (Z * Z)) (P Q : list Z) : Prop :=
  match fr with
  | [] => B (eV a) W = Root /\ X (eV a) Root = P ++ W :: Q
  | (z, R) :: r => B (eV a) W = R /\ (exists l, X (eV a) R = W :: l) /\ (exists d, R = N + d /\ act (eV a) d /\ p d = z /\ In d (prl a z)) /\ chain a Root z r P Q
  end.
Fixpoint jx (s : gv) (W : Z) (fr : list (Z * Z)) (Q : list Z) : list Z :=
  match fr with [] => W :: Q | (z, R) :: r => X s R ++ jx s z r Q end.
Lemma jx_ext s t W fr Q : X t = X s -> jx t W fr Q = jx s W fr Q.
Proof. intros E. revert W. induction fr as [|[z R] fr IH]; intros W; [reflexivity|]. cbn [jx]. now rewrite E, IH. Qed.
Lemma chain_ext a b Root W fr P Q : chain a Root W fr P Q -> (forall x, In (B (eV a) x) (Root :: map snd fr) -> B (eV b) x = B (eV a) x) ->
  (forall R, In R (Root :: map snd fr) -> X (eV b) R = X (eV a) R) ->
  (forall d x, In (N + d) (map snd fr) -> act (eV a) d -> In d (prl a x) -> act (eV b) d /\ In d (prl b x)) -> chain b Root W fr P Q.
Proof.
  intros C HB HX Hd. revert W C HB HX Hd. induction fr as [|[z R] fr IH]; intros W C HB HX Hd.
  - destruct C as [C1 C2]. split; [rewrite HB; auto; rewrite C1; now left|]. rewrite HX; [auto|now left].
  - destruct C as (C1 & (l & C2) & (d & D1 & D2 & D3 & D4) & C4). split; [rewrite HB; [auto|]|].
    + rewrite C1. right. now left.
    + split; [exists l; rewrite HX; [auto|right; now left]|]. split.
      * exists d. split; [auto|]. destruct (Hd d z) as [K1 K2]; auto. left. auto.
      * apply IH; auto.
        -- intros x [E|HR']; apply HB; [now left|right; now right].
        -- intros R' [->|HR']; apply HX; [now left|right; now right].
        -- intros d' x H1. apply Hd. now right.
Qed.
Lemma B_le C xs s z : geo C xs s -> prim z -> B s z <> NIL -> N < B s z <= N + z.
Proof.
  intros G Pz HB. assert (p z <> NIL) as Hn by (intros E; apply HB; apply (g_B0 _ _ _ (g_base _ _ _ _ _ G) z Pz E)).
  destruct (B_act g0 kids St _ _ _ _ G Pz Hn) as (c & E & (Pc & _) & A). pose proof (anc_le g0 kids St _ _ Pz A). unfold GeoP.prim in *. lia.
Qed.
(** The roots increase along a descent. *)
Lemma chain_top a C xs Root W fr P Q : geo C xs (eV a) -> isroot Root -> chain a Root W fr P Q -> B (eV a) W = hd Root (map snd fr).
Proof. intros G HR. destruct fr as [|[z R] fr]; cbn [chain map snd hd]; tauto. Qed.
Lemma chain_lt a C xs Root fr P Q : geo C xs (eV a) -> isroot Root -> forall W, chain a Root W fr P Q ->
  (forall R, In R (map snd fr) -> Root < R <= B (eV a) W) /\ NoDup (map snd fr) /\ (forall z R, In (z, R) fr -> prim z /\ isroot R /\ B (eV a) z < R).
Proof.
  intros G HR. induction fr as [|[z R] fr IH]; intros W Ch.
  - split; [intros R []|]. split; [constructor|]. intros z R [].
  - destruct Ch as (C1 & (l & C2) & (d & D1 & (A1 & A2 & A3) & D3 & D4) & C4). destruct (IH z C4) as (I1 & I2 & I3). pose proof (chain_top _ _ _ _ _ _ _ _ G HR C4) as Bz.
    destruct (Hp g0 kids St d A1 A2) as [Pz Lz]. rewrite D3 in Pz, Lz.
    assert (Bn : N < B (eV a) z <= N + z).
    { apply (B_le C xs); auto. intros E. rewrite E in Bz. destruct fr as [|[z' R'] fr']; cbn [map snd hd] in Bz; [unfold GeoP.isroot, NIL in *; lia|].
      cbn [chain] in C4. destruct C4 as (K1 & _ & (d' & K2 & (K3 & _) & _) & _). unfold GeoP.prim, NIL in *. lia. }
    assert (Rz : Root <= B (eV a) z). { rewrite Bz. destruct fr as [|[z' R'] fr']; cbn [map snd hd]; [lia|]. specialize (I1 R'). cbn [map snd In] in I1. destruct (I1 (or_introl eq_refl)); lia. }
    split; [|split].
    + intros R' [<-|HR']; [cbn [snd]; lia|]. specialize (I1 R' HR'). lia.
    + cbn [map snd]. constructor; auto. intros HR'. specialize (I1 R HR'). lia.
    + intros z' R' [E|HR']; [inversion E; subst z' R'; clear E|now apply I3]. split; [auto|]. split; [unfold GeoP.isroot, GeoP.prim in *; lia|lia].
Qed.

Definition xcond (a : est) (R : Z) (xs : list Z) : Prop :=
  (forall x, xs = [x] -> o (eV a) x = o (eV a) R /\ ep (eV a) x = R) /\ (forall x y l, xs = x :: y :: l -> ep (eV a) (last xs NIL) <> R).
Lemma xcond_long s R xs : isroot R -> halfopen N s R xs -> (2 <= length xs)%nat -> forall x y l, xs = x :: y :: l -> ep s (last xs NIL) <> R.
Proof.
  intros HR (pre & segs & FS & Hh) L2 x y l E. pose proof (h_linked _ _ _ _ _ _ _ Hh) as L.
  destruct (list_snoc xs) as [->|(l1 & w & E1)]; [discriminate|]. destruct (list_snoc l1) as [->|(l2 & u & E2)]; [rewrite E1 in L2; cbn [app length] in L2; lia|].
  rewrite E1, last_snoc. rewrite E1 in L. apply linked_mid in L. destruct L as [-> _]. rewrite E2, last_snoc.
  destruct (h_in _ _ _ _ _ _ _ Hh u) as [Pu _]; [rewrite E1, E2, !in_app_iff; left; right; now left|]. unfold GeoP.prim, GeoP.isroot in *. lia.
Qed.
Lemma static_kids_u x y d : In d (kids x) -> In d (kids y) -> x = y.
Proof. intros H1 H2. apply (st_kid _ _ St) in H1, H2. destruct H1 as (_ & _ & <-), H2 as (_ & _ & <-). reflexivity. Qed.
Lemma static_kids_nd x : NoDup (kids x).
Proof.
  pose proof (st_sorted _ _ St x) as S. induction S as [|y l S IH F]; [constructor|]. constructor; auto. intros Hy. rewrite Forall_forall in F. specialize (F y Hy). lia.
Qed.

(** The merges, one after the other. *)
Fixpoint mseq (a : est) (fr : list (Z * Z)) (b : est) : Prop :=
  match fr with
  | [] => b = a
  | (z, R) :: r => exists xs a1, geo R xs (eV a) /\ merge_rel g0 kids a a1 R (B (eV a) z) z /\ mseq a1 r b
  end.
Lemma merge_all Root c P Q : Root = N + c -> forall fr n g a z R xs d,
  rp g a (enc (eV a) ((z, R) :: fr)) -> geo R xs (eV a) -> xcond a R xs -> R = N + d -> act (eV a) d -> p d = z -> In d (prl a z) ->
  chain a Root z fr P Q -> act (eV a) c -> (forall x d, In d (prl a x) -> p d = x) -> (length fr < n)%nat ->
  exists g' b, merge_bicomps (S n) g = Ret g' /\ rp g' b [] /\ geo Root (xs ++ jx (eV a) z fr Q) (eV b) /\ jrel a b (R :: map snd fr) Root /\ mseq a ((z, R) :: fr) b /\
    (P = [] -> fo g0 (eV a) R xs -> fo g0 (eV b) Root (xs ++ jx (eV a) z fr Q) /\ sub (nbrs (eV b) Root) (tl (xs ++ jx (eV a) z fr Q)) /\ sub (nbrs (eV b) (hd NIL xs)) (tl (xs ++ jx (eV a) z fr Q))).
Proof.
  intros ER. induction fr as [|[z' R'] fr IH]; intros n g a z R xs d H G XC Ed Ad Pd Id Ch Ac Hprl Hn.
  - pose proof Ad as (A1 & A2 & A3). pose proof Ac as (K1 & K2 & K3). destruct Ch as [C1 C2]. destruct (Hp g0 kids St d A1 A2) as [Pz Lz]. rewrite Pd in Pz, Lz.
    assert (HR : isroot R) by (unfold GeoP.isroot, GeoP.prim in *; lia). assert (HC : isroot Root) by (unfold GeoP.isroot, GeoP.prim in *; lia).
    assert (BN : B (eV a) z <> NIL) by (rewrite C1; unfold GeoP.isroot, NIL in *; lia). pose proof (B_le _ _ _ _ G Pz BN) as BL.
    assert (Hk : In d (kids z)) by (apply (st_kid _ _ St); auto).
    cbn [merge_bicomps]. unfold stk_empty. rewrite (r_stack _ _ _ _ H). cbn [enc isnil].
    cbn [enc] in H. destruct (pop2_ok _ _ _ _ _ _ H) as (g1 & W1 & H1). rewrite W1. cbn [bind]. destruct (pop2_ok _ _ _ _ _ _ H1) as (g2 & W2 & H2). rewrite W2. cbn [bind].
    destruct XC as [X1 X2].
    destruct (merge_one_ok g0 kids HP (st_kids _ _ St) g2 a [] R xs P z Q d) as (g3 & b & W3 & H3 & G3 & M3 & _); auto; try (rewrite C1; auto; fail); try lia; [now rewrite Ed|rewrite C1, ER; auto|].
    rewrite W3. cbn [bind]. exists g3, b. split.
    + destruct n as [|n]; [lia|]. cbn [merge_bicomps]. unfold stk_empty. now rewrite (r_stack _ _ _ _ H3).
    + split; [auto|]. rewrite C1 in G3, M3. split; [exact G3|]. cbn [map]. split.
      * apply (jrel_one a b R xs Root z d); auto; [apply static_kids_nd|apply static_kids_u].
      * split; [exists xs, b; rewrite C1; split; [exact G|split; [exact M3|reflexivity]]|]. intros -> F. cbn [jx]. rewrite ER in *. apply (fo_merge g0 kids St a b R xs z Q d c); auto. lia.
  - pose proof Ad as (A1 & A2 & A3). pose proof Ac as (K1 & K2 & K3). assert (HC : isroot Root) by (unfold GeoP.isroot, GeoP.prim in *; lia).
    pose proof (chain_lt _ _ _ _ _ _ _ G HC z Ch) as (L1 & L2 & L3).
    destruct Ch as (C1 & (l & C2) & (d' & D1 & D2 & D3 & D4) & C4). destruct (Hp g0 kids St d A1 A2) as [Pz Lz]. rewrite Pd in Pz, Lz.
    assert (HR : isroot R) by (unfold GeoP.isroot, GeoP.prim in *; lia). assert (HR' : isroot R') by (apply (L3 z' R'); now left).
    assert (BN : B (eV a) z <> NIL) by (rewrite C1; unfold GeoP.isroot, NIL in *; lia). pose proof (B_le _ _ _ _ G Pz BN) as BL.
    assert (Hk : In d (kids z)) by (apply (st_kid _ _ St); auto).
    cbn [merge_bicomps]. unfold stk_empty. rewrite (r_stack _ _ _ _ H). cbn [enc isnil].
    change (enc (eV a) ((z, R) :: (z', R') :: fr)) with (b2z (o (eV a) R) :: R :: b2z (negb (o (eV a) z)) :: z :: enc (eV a) ((z', R') :: fr)) in H.
    destruct (pop2_ok _ _ _ _ _ _ H) as (g1 & W1 & H1). rewrite W1. cbn [bind]. destruct (pop2_ok _ _ _ _ _ _ H1) as (g2 & W2 & H2). rewrite W2. cbn [bind].
    destruct XC as [X1 X2].
    destruct (merge_one_ok g0 kids HP (st_kids _ _ St) g2 a (enc (eV a) ((z', R') :: fr)) R xs [] z l d) as (g3 & b & W3 & H3 & G3 & M3 & _); auto;
      try (rewrite C1; auto; fail); try lia; [now rewrite Ed|rewrite C1, D1; apply D2|].
    rewrite W3. cbn [bind]. rewrite C1 in G3, M3.
    assert (J : jrel a b [R] R') by (apply (jrel_one a b R xs R' z d); auto; [apply static_kids_nd|apply static_kids_u]).
    assert (NR : forall R1, In R1 (map snd ((z', R') :: fr)) -> R1 <> R) by (intros R1 HR1; specialize (L1 R1 HR1); lia).
    assert (EO : enc (eV a) ((z', R') :: fr) = enc (eV b) ((z', R') :: fr)) by (symmetry; apply enc_ext; intros; rewrite (j_o _ _ _ _ J); auto).
    rewrite EO in H3. cbn [length] in Hn. destruct n as [|n]; [lia|].
    destruct (IH n g3 b z' R' (xs ++ z :: l) d') as (g' & b' & W4 & H4 & G4 & J4 & S4 & F4); auto.
    + split.
      * intros x Ex. exfalso. destruct (g_half _ _ _ _ _ G HR) as (pre & segs & FS & Hh). pose proof (h_ne _ _ _ _ _ _ _ Hh) as Nx. destruct xs as [|x1 xs]; [congruence|]. destruct xs; discriminate.
      * intros x y l' Ex. apply (xcond_long _ _ _ HR' (g_half _ _ _ _ _ G3 HR')) with x y l'; auto. rewrite Ex. cbn [length]. lia.
    + apply (jrel_act _ _ _ _ _ J). split; [auto|]. intros [Q1|[]]. apply (NR R'); [now left|lia].
    + apply (j_prl _ _ _ _ J). split; [auto|]. intros [Q1|[]]. apply (NR R'); [now left|lia].
    + apply (chain_ext a); auto.
      * intros x Hx. rewrite (j_B _ _ _ _ J). cbn [inb existsb]. rewrite orb_false_r. destruct (Z.eqb_spec (B (eV a) x) R) as [E|]; [|auto]. exfalso.
        destruct Hx as [Hx|Hx]; [specialize (L1 R' (or_introl eq_refl)); lia|]. apply (NR (B (eV a) x)); [now right|auto].
      * intros R1 _. now rewrite (j_X _ _ _ _ J).
      * intros d1 x I1 I2 I3. rewrite (jrel_act _ _ _ _ _ J), (j_prl _ _ _ _ J). assert (N + d1 <> R) by (apply NR; now right). cbn [In]. intuition.
    + apply (jrel_act _ _ _ _ _ J). split; [auto|]. intros [Q1|[]]. specialize (L1 R' (or_introl eq_refl)). lia.
    + intros x d1. rewrite (j_prl _ _ _ _ J). intros [Q1 _]. auto.
    + lia.
    + exists g', b'. split; [exact W4|]. split; [auto|]. cbn [jx]. rewrite C2. rewrite (jx_ext (eV a) (eV b)) in G4 by (apply J). rewrite app_assoc. split; [exact G4|]. split.
      * apply (jrel_trans a b b' R R' (R' :: map snd fr) Root); auto; [right; now left|intros HRR; apply (NR R HRR eq_refl)|]. replace (R - N) with d by lia. rewrite Pd. intros HZ.
        change (R' :: map snd fr) with (map snd ((z', R') :: fr)) in HZ. apply in_map_iff in HZ. destruct HZ as ([z1 R1] & E1 & HZ). cbn [snd] in E1. destruct (L3 z1 R1 HZ) as (_ & Q1 & _). unfold GeoP.prim, GeoP.isroot in *. lia.
      * split; [exists xs, b; rewrite C1; split; [exact G|split; [exact M3|exact S4]]|]. intros EP F. rewrite (jx_ext (eV a) (eV b)) in F4 by (apply J). destruct (fo_merge g0 kids St a b R xs z l d d') as (K4 & K5 & K6); auto; try (rewrite <- D1; auto; fail); [specialize (L1 R' (or_introl eq_refl)); lia|].
        destruct (F4 EP) as (K7 & K8 & K9); [rewrite D1; exact K4|]. split; [exact K7|]. split; [exact K8|]. destruct xs as [|x xs]; [|exact K9]. exfalso. destruct (g_half _ _ _ _ _ G HR) as (pre & segs & FS & Hh). now apply (h_ne _ _ _ _ _ _ _ Hh).
Qed.
End Join.
