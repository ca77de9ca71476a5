(** * EmbedP: the embedder as a whole. *)
From Coq Require Import ZifyBool Permutation Sorted.
From Verif Require Import Base BaseP GraphRec GraphM GraphSpec GSimp LinkP GraphP GraphP2 GraphP3 GraphP4 GraphP5 GraphEx ListM ListSpec ListP DFSM DFSSpec DFSP DFSP2 DFSP3 DFSP4 DFSP7 TestM TestSpec TestP TestP3 EmbedSpec EmbM EmbSpec EmbP FaceP GeoP EmbInv EmbStep EmbTree EmbWalk EmbUp EmbJoin EmbDown EmbLoop EmbFin EmbInit EmbInit2 EmbInit3 EmbInit4 EmbInit5 PlanSpec OutSpec OutP EmbC2 EmbC4 ObsSpec IsoP1 IsoP4 IsoT IsoB IsoKB IsoKV.

(** A pattern of K5 or K3,3 is carried along by an injective map that keeps adjacency. *)
Lemma kuratowski_map (V V' : Z -> Prop) (E E' : Z -> Z -> Prop) (m : Z -> Z) :
  (forall x, V x -> V' (m x)) -> (forall x y, V x -> V y -> m x = m y -> x = y) -> (forall x y, V x -> V y -> E x y -> E' (m x) (m y)) ->
  kuratowski V E -> kuratowski V' E'.
Proof.
  intros HV Hi HE.
  assert (C : forall L, (forall x, In x L -> V x) -> conn_set E L -> conn_set E' (map m L)).
  { intros L HL [Ne Hc]. split; [destruct L; [contradiction|discriminate]|].
    intros x' y' Hx Hy. apply in_map_iff in Hx, Hy. destruct Hx as (x & <- & Hx), Hy as (y & <- & Hy). specialize (Hc x y Hx Hy).
    induction Hc as [Hx'|y z Hp IH He Hz]; [constructor; now apply in_map|].
    assert (Hy' : In y L) by (inversion Hp; auto). apply (path_step _ _ _ (m y)); [now apply IH|apply HE; auto|now apply in_map]. }
  assert (D : forall L L', (forall x, In x L -> V x) -> (forall x, In x L' -> V x) -> (forall x, In x L -> ~ In x L') -> forall x, In x (map m L) -> ~ In x (map m L')).
  { intros L L' HL HL' Hd x' H1 H2. apply in_map_iff in H1, H2. destruct H1 as (x & <- & Hx), H2 as (y & Eq & Hy). apply Hi in Eq; auto. subst. apply (Hd x); auto. }
  assert (T : forall L L', (forall x, In x L -> V x) -> (forall x, In x L' -> V x) -> touching E L L' -> touching E' (map m L) (map m L')).
  { intros L L' HL HL' (x & y & H1 & H2 & H3). exists (m x), (m y). split; [now apply in_map|]. split; [now apply in_map|]. apply HE; auto. }
  intros [(S & K1 & K2 & K3)|(S & K1 & K2 & K3)]; [left|right]; exists (fun i => map m (S i)).
  - split; [|split].
    + intros i Hi5. destruct (K1 i Hi5) as [B1 B2]. split; [now apply C|]. intros x Hx. apply in_map_iff in Hx. destruct Hx as (y & <- & Hy). auto.
    + intros i j x H1 H2. apply D; [apply K1; lia|apply K1; lia|intros y; apply K2; auto].
    + intros i j H1 H2. apply T; [apply K1; lia|apply K1; lia|auto].
  - split; [|split].
    + intros i Hi5. destruct (K1 i Hi5) as [B1 B2]. split; [now apply C|]. intros x Hx. apply in_map_iff in Hx. destruct Hx as (y & <- & Hy). auto.
    + intros i j x H1 H2. apply D; [apply K1; lia|apply K1; lia|intros y; apply K2; auto].
    + intros i j H1 H2. apply T; [apply K1; lia|apply K1; lia|auto].
Qed.

Lemma embed_ok g adj flags : rep g adj -> primary_edges g adj -> simple_graph g adj -> unsearched g adj -> embed_ready g adj ->
  exists h r, gp_Embed g flags = Ret (h, r) /\
    (r = C_NONEMBEDDABLE /\ (Z.land flags EMBEDFLAGS_OUTERPLANAR = 0 -> ~ ~ kuratowski (primary g) (adjacent g adj)) /\
        (Z.land flags EMBEDFLAGS_OUTERPLANAR <> 0 -> ~ ~ outer_obstruction (primary g) (adjacent g adj)) /\
        (flags = EMBEDFLAGS_OUTERPLANAR -> exists A, isolated_subgraph g adj h A /\ (bipartite_subdivision h A 2 3 \/ complete_subdivision h A 4) /\ gembed h = flags /\
           giflags h = Z.lxor (Z.lor (giflags g) FLAGS_DFSNUMBERED) FLAGS_SORTEDBYDFI /\ (forall v, primary h v -> par h v <> NIL -> primary h (par h v))) /\
        (flags = EMBEDFLAGS_PLANAR -> exists A, isolated_subgraph g adj h A /\ (bipartite_subdivision h A 3 3 \/ complete_subdivision h A 5) /\ gembed h = flags /\
           giflags h = Z.lxor (Z.lor (giflags g) FLAGS_DFSNUMBERED) FLAGS_SORTEDBYDFI /\ (forall v, primary h v -> par h v <> NIL -> primary h (par h v))) \/
     r = C_OK /\ exists A, planar_embedding g adj h A /\ one_root_each h A /\ (Z.land flags EMBEDFLAGS_OUTERPLANAR <> 0 -> all_outer h A) /\ gembed h = flags /\
       giflags h = Z.lxor (Z.lor (giflags g) FLAGS_DFSNUMBERED) FLAGS_SORTEDBYDFI /\
       (forall v, primary h v -> par h v <> NIL -> primary h (par h v)) /\ 2 * gM h <= gstackCap h /\ gstack h = []).
Proof.
  intros R P Sm U E. set (g0 := set_gembed g flags).
  assert (R0 : rep g0 adj) by (destruct R as [[] ? []]; constructor; [constructor|assumption|constructor]; assumption).
  assert (P0 : primary_edges g0 adj) by exact P.
  assert (U0 : unsearched g0 adj) by (destruct U; constructor; assumption).
  assert (E0 : embed_ready g0 adj) by (destruct E; constructor; assumption).
  destruct (search_ok g0 adj R0 P0 Sm U0 E0) as (g1 & gd & g2 & ord & ta & F & kd & H1 & H2 & H3 & H4 & H5 & H6).
  destruct (ready_ok g0 adj R0 P0 Sm U0 E0 gd g2 ord ta F kd H4 H5 H6) as (gS & gf & A & hp & S1 & S2 & S3 & S4 & S5 & S6 & S7 & S8 & S9 & S10).
  set (F' := fun x => F (hp x)) in *.
  destruct (start_ok gf gS _ _ _ _ S2) as (h0 & I1 & I2 & I3 & I4 & I5 & I6 & I7 & I8 & I9 & I10 & I11 & I12 & I13 & I14).
  assert (Init : _EmbeddingInitialize g0 = Ret (h0, C_OK)).
  { unfold _EmbeddingInitialize. unfold gp_GetArcCapacity. pose proof (us_room _ _ U0). pose proof (cap_nonneg _ _ R0).
    replace (gstackCap g0 <? 2 * (gCap g0 - 2)) with false by lia. rewrite H1. cbn [bind]. rewrite H2, H3. cbn [bind]. rewrite S1. cbn [bind C_OK Z.eqb Pos.eqb negb].
    rewrite I1. reflexivity. }
  unfold gp_Embed. cbv zeta. fold g0. rewrite Init. cbn [bind C_OK Z.eqb Pos.eqb negb].

  set (EE := fun x y => adjacent gf A x y \/ opl h0 = true /\ (x = NIL /\ primary g y \/ primary g x /\ y = NIL)).
  specialize (I4 EE (fun x y H => or_introl H)). rewrite <- I8 in I4.
  assert (Op : opl h0 = true <-> Z.land flags EMBEDFLAGS_OUTERPLANAR <> 0) by (unfold opl; rewrite I11, S5; change (gembed g0) with flags; lia).
  pose proof (q_rep _ _ _ _ _ _ S2) as Rf. pose proof (q_simple _ _ _ _ _ _ S2) as Sf.
  assert (Gd : good h0 (a0 gf F' (fun x : Z => ta (hp x)) h0)).
  { split; [|split; [|split; [exact I5|]]].
    - intros e He. apply I6 in He. change (nb (eV (a0 gf F' (fun x : Z => ta (hp x)) h0))) with (enbr h0). destruct He as [v He]. destruct (DFSP.arc_twin gf A Rf _ _ He) as (_ & D1 & _ & D2).
      rewrite !I7 by eauto. rewrite D2. apply (proj1 Sf _ _ He).
    - intros e He. apply I6 in He. destruct He as [v He]. destruct (DFSP.arc_twin gf A Rf _ _ He) as (_ & D1 & _ & D2). unfold ty. change (fl (eV (a0 gf F' (fun x : Z => ta (hp x)) h0))) with (eflags h0). rewrite I13.
      change (etype gS e = EDGE_TYPE_CHILD <-> etype gS (twin e) = EDGE_TYPE_PARENT). rewrite (q_ty _ _ _ _ _ _ S2 _ _ He), (q_ty _ _ _ _ _ _ S2 _ _ D1).
      destruct (df_edges _ _ _ _ (q_forest _ _ _ _ _ _ S2) _ _ He (proj1 Sf _ _ He)) as [(-> & -> & _)|[(-> & -> & _)|[(-> & -> & _)|(-> & -> & _)]]]; split; intros Q; try discriminate; reflexivity.
    - intros e f He Hf. apply I6 in He, Hf. destruct He as [v He], Hf as [w Hf]. change (nb (eV (a0 gf F' (fun x : Z => ta (hp x)) h0))) with (enbr h0). destruct (DFSP.arc_twin gf A Rf _ _ He) as (_ & D1 & _ & D2), (DFSP.arc_twin gf A Rf _ _ Hf) as (_ & D3 & _ & D4).
      rewrite !I7 by eauto. rewrite D2, D4. intros Q1 Q2. rewrite <- Q2 in Hf. exact (proj2 Sf _ _ _ He Hf Q1). }
  destruct (loop_post_ok h0 _ I2 EE h0 _ I3 I4 Gd) as (g' & x & L1 & [(-> & Ng & Is & L2)|(-> & h & B & L2 & Em)]); rewrite L1; cbn [bind]; rewrite L2.
  { exists g', C_NONEMBEDDABLE. split; [reflexivity|]. left. split; [reflexivity|].
    assert (PP : forall x, primary h0 x <-> primary g x) by (intros x; unfold primary; now rewrite I8, S3).
    assert (PPf : forall x, primary gf x <-> primary g x) by (intros x; unfold primary; now rewrite S3).
    assert (Ad : forall x y, primary g x -> primary g y -> adjacent gf A x y -> adjacent g adj (hp x) (hp y)).
    { intros x y Hx Hy (e & He & Ey). rewrite S9 in He. exists e. split; [exact He|]. destruct (S10 _ _ He) as [C1 C2].
      rewrite Ey in C2. rewrite (proj2 (S7 _ Hy)) in C2. symmetry. exact C2. }
    assert (G : ~ kuratowski (vok h0) EE -> False).
    { intros Nk. apply Ng. constructor.
      - intros O x Hx. right. split; [exact O|]. right. split; [unfold prim in Hx; rewrite I8, S3 in Hx; exact Hx|reflexivity].
      - exact Nk.
      - intros x y [(e & He & Ey)|(O & H)]; [left|right; split; [exact O|tauto]]. destruct (DFSP.arc_twin gf A Rf _ _ He) as (_ & B4 & B5 & B6). rewrite Ey in B4. exists (twin e). auto.
      - intros c Pc Hp. assert (Pc' : primary gf c) by (apply PPf, PP; exact Pc). rewrite I14 in * by exact Pc'.
        destruct (t_facts _ _ _ _ _ _ S2 c (conj Pc' Hp)) as (_ & _ & _ & B4 & B5 & _). left. eexists. split; [exact B4|exact B5]. }
    assert (Iso : forall ME B, leaves h0 (a0 gf F' (fun x : Z => ta (hp x)) h0) ME g' B -> isolated_subgraph g adj g' B /\ gembed g' = flags /\
        giflags g' = Z.lxor (Z.lor (giflags g) FLAGS_DFSNUMBERED) FLAGS_SORTEDBYDFI /\ (forall v, primary g' v -> par g' v <> NIL -> primary g' (par g' v))).
    { intros ME B Lv.
      assert (Bi : forall x e, In e (B x) -> In e (A x) /\ enbr g' e = enbr gf e).
      { intros x e He. pose proof (lv_nbr _ _ _ _ _ Lv _ _ He) as En. apply (lv_in _ _ _ _ _ Lv) in He. destruct He as (He & Ex & _). apply I6 in He. destruct He as [v He]. destruct (DFSP.arc_twin gf A Rf _ _ He) as (_ & D1 & _ & D2).
        change (nb (eV (a0 gf F' (fun x : Z => ta (hp x)) h0))) with (enbr h0) in *. rewrite I7 in Ex, En by eauto. split; [rewrite Ex, D2; exact He|exact En]. }
      assert (Ix : forall v, primary g v -> vindex g' v = hp v /\ primary g (hp v)).
      { intros v Hv. rewrite (lv_vindex _ _ _ _ _ Lv v) by (rewrite I8, S3; exact Hv). rewrite I9. destruct (S7 v Hv) as [B1 B2]. auto. }
      assert (Ng' : gN g' = gN g) by (rewrite (lv_N _ _ _ _ _ Lv), I8, S3; reflexivity).
      assert (Pb : primary_edges g' B).
      { intros v e He. split; [apply (ch_isvertex _ _ _ _ (rep_chains _ _ (lv_rep _ _ _ _ _ Lv)) He)|]. destruct (Z_le_dec v (gN g')) as [|H]; [auto|].
        rewrite (lv_virt _ _ _ _ _ Lv) in He by (rewrite I8, S3; change (gN g0) with (gN g); lia). destruct He. }
      split; [|split; [rewrite (lv_embed _ _ _ _ _ Lv), I11, S5; reflexivity|split; [rewrite (lv_iflags _ _ _ _ _ Lv), I12, S6; reflexivity|]]].
      2:{ intros v Hv Hp. unfold par in *. rewrite (lv_parent _ _ _ _ _ Lv) in *.
          destruct (st_p _ _ I2 v) as [[D1 D2] _]; [rewrite <- (lv_N _ _ _ _ _ Lv); exact Hv|exact Hp|]. split; [exact D1|rewrite (lv_N _ _ _ _ _ Lv); exact D2]. }
      constructor; auto.
        + apply (lv_rep _ _ _ _ _ Lv).
        + intros v Hv. destruct (Ix v Hv) as [-> H]. exact H.
        + intros v w Hv Hw. rewrite (proj1 (Ix v Hv)), (proj1 (Ix w Hw)). apply (S8 v w Hv Hw).
        + intros v e He. pose proof (Pb _ _ He) as Pv. assert (Pv' : primary g v) by (unfold primary in *; lia). rewrite (proj1 (Ix v Pv')), <- S9. now apply Bi.
        + intros v e He. destruct (Bi _ _ He) as [Ha ->]. rewrite S9 in Ha. destruct (S10 _ _ Ha) as [C1 C2]. rewrite (proj1 (Ix _ C1)). destruct (S7 _ C1) as [_ C3]. rewrite <- C3, C2. reflexivity. }
    destruct Is as [Is1 Is2].
    split; [|split; [|split; intros Fl]]; [intros Fl Nk; apply G; intros K; apply Nk|intros Fl Nk; apply G; intros K; apply Nk| |].
    3:{ destruct (Is1 ltac:(rewrite I11, S5; exact Fl)) as (ME & B & Lv & Ob). exists B. destruct (Iso ME B Lv) as (J1 & J2). auto. }
    3:{ destruct (Is2 ltac:(rewrite I11, S5; exact Fl)) as (ME & B & Lv & Ob). exists B. destruct (Iso ME B Lv) as (J1 & J2). auto. }
    - assert (O : opl h0 <> true) by (rewrite Op; lia). revert K. apply (kuratowski_map _ _ _ _ hp).
      + intros x [Hx|[Hx _]]; [|contradiction]. apply PP in Hx. apply (S7 x Hx).
      + intros x y [Hx|[Hx _]] [Hy|[Hy _]]; try contradiction. apply PP in Hx, Hy. now apply S8.
      + intros x y [Hx|[Hx _]] [Hy|[Hy _]] [H|[H _]]; try contradiction. apply PP in Hx, Hy. now apply Ad.
    - set (hq := fun x => if x =? NIL then NIL else hp x). assert (N0 : ~ primary g NIL) by (unfold primary, NIL; lia).
      assert (Hq : forall x, primary g x -> hq x = hp x) by (intros x Hx; unfold hq; destruct (Z.eqb_spec x NIL) as [->|]; [contradiction|reflexivity]).
      apply (apex_minor (primary g) (adjacent g adj) (fun x y => adjacent g adj x y \/ x = NIL \/ y = NIL) NIL).
      { intros x y Hx Hy [H|[-> | ->]]; [auto|contradiction|contradiction]. }
      { intros x y (e & He & Ey). destruct (DFSP.arc_twin g adj R _ _ He) as (_ & B4 & B5 & B6). rewrite Ey in B4. exists (twin e). auto. }
      revert K. apply (kuratowski_map _ _ _ _ hq).
      + intros x [Hx|[_ ->]]; [left|right; reflexivity]. apply PP in Hx. rewrite Hq by auto. apply (S7 x Hx).
      + intros x y [Hx|[_ ->]] [Hy|[_ ->]].
        * apply PP in Hx, Hy. rewrite !Hq by auto. now apply S8.
        * apply PP in Hx. rewrite Hq by auto. change (hq NIL) with NIL. intros Q. elim N0. rewrite <- Q. apply (S7 x Hx).
        * apply PP in Hy. rewrite (Hq y) by auto. change (hq NIL) with NIL. intros Q. elim N0. rewrite Q. apply (S7 y Hy).
        * reflexivity.
      + intros x y [Hx|[_ ->]] [Hy|[_ ->]]; try (intros _; right; (left; reflexivity) || (right; reflexivity)). apply PP in Hx, Hy. rewrite !Hq by auto.
        intros [H|[_ [[-> _]|[_ ->]]]]; [left; now apply Ad|contradiction|contradiction]. }
  exists h, C_OK. split; [reflexivity|]. right. split; [reflexivity|]. exists B.
  destruct Em as [K Rh Eu Ro Ou Ar Vi Nb Ty Sk].
  assert (Nh : gN h = gN g) by (rewrite (k_N _ _ K), I8, S3; reflexivity).
  assert (Pn : forall v, primary h v <-> primary g v) by (intros v; unfold primary; now rewrite Nh).
  assert (Ph : primary_edges h B).
  { intros v e He. split; [apply (ch_isvertex _ _ _ _ (rep_chains _ _ Rh) He)|]. destruct (Z_le_dec v (gN h)) as [|H]; [auto|].
    rewrite Vi in He by (rewrite <- (k_N _ _ K); lia). destruct He. }
  assert (Ix : forall v, primary g v -> vindex h v = hp v /\ primary g (hp v)).
  { intros v Hv. destruct (k_index _ _ K v) as [-> _]; [rewrite I8, S3; exact Hv|]. rewrite I9. destruct (S7 v Hv) as [B1 B2]. auto. }
  assert (ArcE : forall e, (exists v, In e (B v)) <-> exists v, In e (adj v)).
  { intros e. rewrite Ar, I6. split.
    - intros (v & Hv). rewrite S9 in Hv. eauto.
    - intros (v & Hv). destruct (DFSP.arc_twin _ _ R _ _ Hv) as (_ & H & _ & H'). destruct (S10 _ _ H) as [C1 C2]. exists (enbr gf (twin e)).
      rewrite S9. destruct (S7 _ C1) as [_ C3]. rewrite <- C3, C2. change (enbr g0) with (enbr g). now rewrite H'. }
  assert (NbE : forall v e, In e (adj v) -> primary g (enbr h e) /\ vindex h (enbr h e) = enbr g e).
  { intros v e He. assert (Ae : arc (a0 gf F' (fun x : Z => ta (hp x)) h0) e) by (apply Ar, ArcE; eauto). rewrite Nb by exact Ae. change (nb (eV (a0 gf F' (fun x : Z => ta (hp x)) h0)) e) with (enbr h0 e).
    rewrite I7 by now apply I6. destruct (S10 _ _ He) as [C1 C2]. split; [exact C1|]. rewrite (proj1 (Ix _ C1)). destruct (S7 _ C1) as [_ C3]. rewrite <- C3, C2. reflexivity. }
  split; [|split; [exact Ro|split; [intros O; apply Ou, Op, O|]]].
  { constructor; auto.
    - rewrite (k_M _ _ K), I10, S4. reflexivity.
    - intros v Hv. destruct (Ix v Hv) as [-> H]. exact H.
    - intros v w Hv Hw. rewrite (proj1 (Ix v Hv)), (proj1 (Ix w Hw)). apply (S8 v w Hv Hw).
    - assert (Fw : forall v e, In e (B v) -> In e (adj (vindex h v))).
      { intros v e He. destruct (DFSP.arc_twin _ _ Rh _ _ He) as (_ & D1 & D2 & D3). destruct (proj1 (ArcE e) (ex_intro (fun v => In e (B v)) _ He)) as [u Hu].
        destruct (DFSP.arc_twin _ _ R _ _ Hu) as (_ & D4 & D5 & D6). destruct (NbE _ _ D4) as [_ D7]. rewrite D3, D6 in D7. now rewrite D7. }
      intros v e Hv. split; [apply Fw|]. intros He. destruct (proj2 (ArcE e) (ex_intro (fun v => In e (adj v)) _ He)) as [u Hu].
      assert (Hu' := Fw _ _ Hu). pose proof (Ph _ _ Hu) as Pu. apply Pn in Pu.
      assert (Eq : vindex h u = vindex h v) by apply (ch_disj _ _ (rep_chains _ _ R) _ _ _ Hu' He).
      rewrite (proj1 (Ix u Pu)), (proj1 (Ix v Hv)) in Eq. apply (S8 u v Pu Hv) in Eq. now subst u.
    - intros v e He. destruct (proj1 (ArcE e) (ex_intro (fun v => In e (B v)) _ He)) as [u Hu]. apply (NbE u e Hu). }
  split; [rewrite (k_embed _ _ K), I11, S5; reflexivity|]. split; [rewrite (k_iflags _ _ K), I12, S6; reflexivity|].
  split; [|split; [|exact Sk]].
  - intros v Hv Hp. unfold par in *. rewrite (k_parent _ _ K) in *.
    destruct (st_p _ _ I2 v) as [[D1 D2] _]; [rewrite <- (k_N _ _ K); exact Hv|exact Hp|]. split; [exact D1|rewrite (k_N _ _ K); exact D2].
  - rewrite (k_M _ _ K), (k_stackCap _ _ K). pose proof (st_cap _ _ I2). pose proof (so_cap _ _ I5) as D1. pose proof (so_M _ _ I5).
    unfold gp_EdgeInUseIndexBound, gp_EdgeIndexBound in D1. lia.
Qed.

(** ** Graphs made by editing *)
Definition clean_inv (g : graph) : Prop :=
  True /\ (forall x, viPertEdge (gVI g) x = NIL) /\ (forall x, viPertRoots (gVI g) x = NIL) /\
  (forall x, viSDC (gVI g) x = NIL) /\ (forall x, viFwd (gVI g) x = NIL) /\ brlPrev (gX g) NIL = NIL /\ sdlPrev (gX g) NIL = NIL /\
  (forall e, Z.land (eflags g e) EDGEFLAG_INVERTED_MASK = 0).

Lemma clean_frame g g' : clean_inv g -> gVI g' = gVI g -> gX g' = gX g -> (forall e, eflags g' e = eflags g e \/ eflags g' e = 0) -> clean_inv g'.
Proof.
  intros (_ & I1 & I2 & I3 & I4 & I5 & I6 & I7) EV EX EF. unfold clean_inv. rewrite EV, EX. do 7 (split; [auto|]).
  intros e. destruct (EF e) as [->| ->]; [apply I7|reflexivity].
Qed.
Lemma clean_insert g g' adj u eu ul v ev vl : clean_inv g -> insert_post g g' adj u eu ul v ev vl -> clean_inv g'.
Proof.
  intros I P. pose proof (ip_frame _ _ _ _ _ _ _ _ _ P) as F. apply (clean_frame g); auto; try apply F. intros e. left. now rewrite (GraphP2.if_eflags _ _ F).
Qed.
Lemma clean_grown g g' c : clean_inv g -> grown g g' c -> clean_inv g'.
Proof.
  intros I G. apply (clean_frame g); auto; try apply G. intros e. rewrite (gr_eflags _ _ _ G). destruct (_ && _); auto.
Qed.
Lemma clean_add g g' adj u ul v vl r : clean_inv g -> add_post g g' adj u ul v vl r -> clean_inv g'.
Proof.
  intros I. unfold add_post. destruct (negb _); [intros [-> _]; auto|]. destruct (_ <=? _); [intros [-> _]; auto|].
  intros [_ P]. now apply (clean_insert _ _ _ _ _ _ _ _ _ I P).
Qed.
Lemma clean_ensure g g' req r : clean_inv g -> ensure_post g g' req r -> clean_inv g'.
Proof.
  intros I. unfold ensure_post. destruct (_ || _); [intros [-> _]; auto|]. destruct (_ <=? _); [intros [-> _]; auto|].
  intros [_ G]. now apply (clean_grown _ _ _ I G).
Qed.
Lemma clean_gstep g o : hist_inv g -> clean_inv g -> gop_valid g o -> clean_op g o -> wp (gstep g o) (fun r => clean_inv (fst r)).
Proof.
  intros ((adj & R) & Cl & Hs & Hc) I Hv [Hp Hq]. pose proof (stack_len0 _ Hs Hc) as Hst.
  destruct o as [u ul v vl|u ul v vl|u eu ul v ev vl|e l|c| |e f]; cbn [gstep gop_valid plain_op] in *.
  - destruct Hv. eapply wp_mono; [eapply add_edge_ok; eauto|]. intros [g' r] P. cbn [fst snd] in *. eapply clean_add; [exact I|exact P].
  - destruct Hv as (H1 & H2 & H3). eapply wp_mono; [eapply dyn_add_ok; eauto|]. intros [g' r] (g1 & r1 & E & P). cbn [fst snd] in *.
    destruct (valid_vertex g u && valid_vertex g v); cbn [negb] in P; [|destruct P as [-> _]; auto].
    destruct (gCap g / 2 <=? gM g); cbn [negb] in P; [|eapply clean_add; [exact I|exact P]].
    pose proof (clean_ensure _ _ _ _ I E) as I1. destruct (r1 =? C_OK) eqn:Er; cbn [negb] in P; [|destruct P as [-> _]; auto].
    destruct P as [R1 P]. apply (clean_add _ _ _ _ _ _ _ _ I1 P).
  - destruct Hv as (H1 & H2). eapply wp_mono; [eapply insert_edge_ok; eauto|]. intros [g' r] P. cbn [fst snd] in *.
    unfold ins_post in P. destruct (negb _); [destruct P as [-> _]; auto|].
    destruct (_ <=? _); [destruct P as [-> _]; auto|]. destruct P as [_ P]. eapply clean_insert; [exact I|exact P].
  - destruct Hv as (H1 & H2). eapply wp_mono; [eapply delete_edge_ok; eauto|].
    intros [g' r] (R' & D & _). cbn [fst snd] in *. apply (clean_frame g); auto; try apply D.
    intros x. rewrite (df_eflags _ _ _ D). destruct (_ || _); auto.
  - eapply wp_mono; [eapply ensure_ok; eauto|]. intros [g' r] [P R']. cbn [fst snd] in *. eapply clean_ensure; eauto.
  - apply wp_ret. cbn [fst]. unfold gp_ReinitializeGraph. pose proof (GraphSpec.st_N _ _ (rep_storage _ _ R)).
    replace (gN g <=? 0) with false by lia.
    unfold clean_inv, _ReinitializeGraph, _InitIsolatorContext, _InitEdges, _InitVertices, lists_reset. gsimp.
    repeat (split; [reflexivity|]). reflexivity.
  - apply (rep_in_use _ _ _ R) in Hv. destruct Hv as [v Hin].
    pose proof (ch_range _ _ (rep_chains _ _ R) _ _ Hin).
    rewrite wr_eflags_ok by (apply inE_true; lia). rewrite bind_ret. apply wp_ret. cbn [fst].
    destruct I as (I0 & I1 & I2 & I3 & I4 & I5 & I6 & I7). unfold clean_inv. gsimp. do 7 (split; [auto|]).
    intros x. unfold upd. destruct (x =? e); [exact Hq|apply I7].
Qed.
Lemma clean_plain g : clean_reach g -> plain_reach g.
Proof. induction 1; [eapply pr_init; eauto|eapply pr_step; eauto]. apply H1. Qed.
Lemma clean_reach_inv g : clean_reach g -> clean_inv g.
Proof.
  induction 1 as [req N g HN Hf|g o g' r Hr IH Hv Hp Hs].
  - unfold fresh_graph in Hf.
    assert (HG : exists c r, gp_EnsureArcCapacity gp_New req = Ret (set_gCap gp_New c, r)).
    { unfold gp_EnsureArcCapacity. destruct (req <=? 0) eqn:E0; [exists 0, C_NOTOK; reflexivity|].
      destruct (negb (Z.land req 1 =? 0)); [exists 0, C_NOTOK; reflexivity|].
      cbn [gCap gN gp_New]. replace (0 >=? req) with false by lia. exists req, C_OK. reflexivity. }
    destruct HG as (c & r & HG). rewrite HG, bind_ret in Hf. injection Hf as <-.
    unfold gp_InitGraph. replace (N <=? 0) with false by lia. cbn [gN set_gCap gp_New Z.eqb negb].
    unfold _InitGraph. cbv zeta. cbn [fst]. unfold _InitIsolatorContext, _InitEdges, _InitVertices, lists_reset.
    unfold clean_inv. gsimp. repeat (split; [reflexivity|]). reflexivity.
  - pose proof (clean_gstep g o (reach_inv _ (plain_reach_reach _ (clean_plain _ Hr))) IH Hv Hp) as W. rewrite Hs in W. exact W.
Qed.
Lemma clean_reach_ready g : clean_reach g -> exists adj, rep g adj /\ primary_edges g adj /\ unsearched g adj /\ embed_ready g adj /\ giflags g = 0.
Proof.
  intros H. destruct (plain_reach_unsearched g (clean_plain g H)) as (adj & R & P & U). exists adj. do 3 (split; [assumption|]).
  split; [|apply (plain_reach_inv g (clean_plain g H))].
  destruct (clean_reach_inv g H) as (_ & I1 & I2 & I3 & I4 & I5 & I6 & I7). constructor; auto.
Qed.

(** ** Concrete histories *)
Definition clean_opb (g : graph) (o : gop) : bool :=
  plain_opb g o && match o with GMark _ f => Z.land f EDGEFLAG_INVERTED_MASK =? 0 | _ => true end.
Fixpoint clean_run (g : graph) (l : list gop) : bool :=
  match l with
  | [] => true
  | o :: l' => clean_opb g o && match gstep g o with Ret (g', _) => clean_run g' l' | _ => false end
  end.
Lemma clean_run_ok l : forall g g', clean_reach g -> run_ops g l = Ret g' -> clean_run g l = true -> clean_reach g'.
Proof.
  induction l as [|o l IH]; cbn [run_ops clean_run]; intros g g' Hg E F; [now injection E as <-|].
  apply andb_prop in F. destruct F as [F1 F2]. destruct (gop_validb g o) eqn:V; [|discriminate]. apply gop_validb_ok in V.
  destruct (gstep g o) as [[g1 r]| |] eqn:E1; cbn [bind] in E; try discriminate.
  apply (IH g1); auto. eapply cr_step; [exact Hg|exact V| |exact E1]. apply andb_prop in F1. destruct F1 as [F3 F4].
  split; [|destruct o; auto; lia]. destruct o; cbn [plain_op plain_opb] in *; lia || auto.
Qed.
Lemma built_clean req N l : is_ret (build req N l) = true -> clean_run (the gp_New (fresh_graph req N)) l = true ->
  clean_reach (built req N l).
Proof.
  unfold built, build. destruct (1 <=? N) eqn:HN; [|discriminate].
  destruct (fresh_graph req N) as [g0| |] eqn:E0; cbn [bind]; try discriminate. cbn [the].
  destruct (run_ops g0 l) as [g| |] eqn:E; try discriminate. intros _ F. apply (clean_run_ok l g0); auto. eapply cr_init; [|exact E0]. lia.
Qed.
