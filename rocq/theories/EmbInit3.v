(** * EmbInit3: the loop over the vertices that ends the initialisation of the embedder. *)
From Coq Require Import ZifyBool Permutation Sorted.
From Verif Require Import Base BaseP GraphRec GraphM GraphSpec GSimp LinkP GraphP GraphP2 GraphP4 GraphP5 ListM ListSpec ListP DFSM DFSSpec DFSP DFSP2 TestM EmbM EmbSpec EmbP FaceP GeoP EmbInv EmbInit EmbInit2.

Lemma kids_hd g kids z : kids_ok g kids -> 1 <= z <= gN g -> gp_GetVertexSortedDFSChildList g z = Ret (hd NIL (kids z)).
Proof.
  intros K Hz. vi1. f_equal. pose proof (ho_head _ _ K z) as E. cbn [cl_heads] in E.
  rewrite <- E. unfold sdcheads. now replace ((1 <=? z) && (z <=? gN g)) with true by lia.
Qed.
Lemma kids_next g kids z c l1 l2 : kids_ok g kids -> 1 <= z <= gN g -> kids z = l1 ++ c :: l2 -> gp_GetVertexNextDFSChild g z c = Ret (hd NIL l2).
Proof.
  intros K Hz E. unfold gp_GetVertexNextDFSChild. rewrite (kids_hd _ _ _ K Hz). cbn [bind]. unfold mLCGetNext.
  pose proof (ho_range _ _ K z c ltac:(rewrite E; apply in_app_iff; right; now left)) as R. cbn [cl_c] in R.
  rewrite rd_next_ok by lia. cbn [bind]. pose proof (ho_circ _ _ K z) as Ci. cbn [cl_c] in Ci. rewrite E in *. rewrite (circular_next _ _ _ _ Ci).
  destruct l2 as [|y l2]; cbn [hd].
  - now rewrite Z.eqb_refl.
  - rewrite eqb_false_neq; [reflexivity|]. pose proof (ho_nodup _ _ K z) as Nd. rewrite E in Nd. intros Q.
    destruct l1 as [|h l1]; cbn [app hd] in *; subst.
    + apply NoDup_cons_iff in Nd. apply (proj1 Nd). now left.
    + apply NoDup_cons_iff in Nd. apply (proj1 Nd). apply in_app_iff. right. right. now left.
Qed.
Lemma low_loop_ok g kids v : kids_ok g kids -> 1 <= v <= gN g -> forall l2 l1 n least, kids v = l1 ++ l2 -> (length l2 < n)%nat ->
  exists m, einit_low_loop n g v (hd NIL l2) least = Ret m /\ m <= least /\ (forall c, In c l2 -> m <= viLow (gVI g) c) /\ (m = least \/ exists c, In c l2 /\ m = viLow (gVI g) c).
Proof.
  intros K Hv. induction l2 as [|c l2 IH]; intros l1 n least E Hn; (destruct n as [|n]; [cbn in Hn; lia|]); cbn [einit_low_loop hd].
  - rewrite Z.eqb_refl. exists least. split; [reflexivity|]. split; [lia|]. split; [intros c []|now left].
  - pose proof (ho_range _ _ K v c ltac:(rewrite E; apply in_app_iff; right; now left)) as R. cbn [cl_c sdl lcN] in R. unfold gp_PrimaryVertexIndexBound in R.
    rewrite (eqb_false_neq c NIL) by (unfold NIL; lia). unfold gp_GetVertexLowpoint. rewrite vi_ok by lia. cbn [bind].
    rewrite (kids_next _ _ _ _ _ _ K Hv E). cbn [bind].
    destruct (IH (l1 ++ [c]) n (if viLow (gVI g) c <? least then viLow (gVI g) c else least)) as (m & E1 & L & C & X).
    + rewrite <- app_assoc. exact E.
    + cbn [length] in Hn. lia.
    + exists m. split; [exact E1|]. destruct (viLow (gVI g) c <? least) eqn:Q; (split; [lia|]); (split; [intros c' [<-|Hc]; try (apply C, Hc); lia|]).
      * right. destruct X as [X|(x & Hx & X)]; [exists c; split; [now left|exact X]|exists x; split; [now right|exact X]].
      * destruct X as [X|(x & Hx & X)]; [now left|right; exists x; split; [now right|exact X]].
Qed.

Section Loop.
Variables (gS : graph) (kids : Z -> list Z) (t : Z -> Z).
Local Notation N := (gN gS).
Local Notation p := (viParent (gVI gS)).
Definition tarc (x : Z) : Prop := 1 <= x <= N /\ p x <> NIL.
Hypotheses (K : kids_ok gS kids) (HN : 1 <= N)
  (Kid : forall u c, In c (kids u) -> u < c <= N)
  (Tr : forall x, tarc x -> inE gS (t x) = true /\ inE gS (twin (t x)) = true)
  (Ti : forall x y, tarc x -> tarc y -> t x = t y -> x = y)
  (Tt : forall x y, tarc x -> tarc y -> t x <> twin (t y))
  (Tv : forall x, tarc x -> vfirst gS (N + x) = t x /\ vlast gS (N + x) = t x).

Record iv (v : Z) (h : graph) : Prop := {
  v_N : gN h = N; v_M : gM h = gM gS; v_cap : gCap h = gCap gS; v_holes : gholes h = gholes gS; v_holesCap : gholesCap h = gholesCap gS;
  v_stackCap : gstackCap h = gstackCap gS; v_if : giflags h = giflags gS; v_embed : gembed h = gembed gS; v_vindex : vindex h = vindex gS; v_vflags : vflags h = vflags gS;
  v_eflags : eflags h = eflags gS; v_stk : gstack h = gstack gS;
  v_VI : gVI h = set_viLow (set_viFPChild (set_viVisited (gVI gS) (viVisited (gVI h))) (viFPChild (gVI h))) (viLow (gVI h));
  v_X : gX h = set_ext1 (set_ext0 (gX gS) (ext0 (gX h))) (ext1 (gX h));
  v_nx : forall e, (forall x, v < x -> tarc x -> e <> t x /\ e <> twin (t x)) -> enext h e = enext gS e /\ eprev h e = eprev gS e;
  v_nb : forall e, (forall x, v < x -> tarc x -> e <> twin (t x)) -> enbr h e = enbr gS e;
  v_done : forall x, v < x -> tarc x -> vfirst h x = twin (t x) /\ vlast h x = twin (t x) /\ enext h (t x) = NIL /\ eprev h (t x) = NIL /\
     enext h (twin (t x)) = NIL /\ eprev h (twin (t x)) = NIL /\ enbr h (twin (t x)) = N + x /\
     ext0 (gX h) x = N + x /\ ext1 (gX h) x = N + x /\ ext0 (gX h) (N + x) = x /\ ext1 (gX h) (N + x) = x;
  v_root : forall x, v < x <= N -> 1 <= x -> p x = NIL -> vfirst h x = NIL /\ vlast h x = NIL;
  v_virt : forall y, N < y -> vfirst h y = vfirst gS y /\ vlast h y = vlast gS y;
  v_info : forall x, v < x <= N -> viVisited (gVI h) x = N /\ viFPChild (gVI h) x = hd NIL (kids x) /\ viLow (gVI h) x <= viLeast (gVI gS) x /\
     (forall c, In c (kids x) -> viLow (gVI h) x <= viLow (gVI h) c) /\
     (viLow (gVI h) x = viLeast (gVI gS) x \/ exists c, In c (kids x) /\ viLow (gVI h) x = viLow (gVI h) c) }.

Lemma iv_init : iv N gS.
Proof. constructor; auto; try (intros; lia). - destruct (gVI gS); reflexivity. - destruct (gX gS); reflexivity. - intros x Hx [Q _]. lia. Qed.

Lemma vertex_ok v h : 1 <= v <= N -> iv v h -> exists h', einit_vertex v h = Ret h' /\ iv (v - 1) h'.
Proof.
  intros Hv I. pose proof (v_N _ _ I) as EN. unfold einit_vertex.
  unfold gp_SetVertexVisitedInfo. rewrite vi_guard by lia. cbn [bind]. rewrite EN.
  set (h1 := set_gVI h (set_viVisited (gVI h) (upd (viVisited (gVI h)) v N))).
  assert (K1 : forall k, gN k = N -> sdl k = sdl gS -> viSDC (gVI k) = viSDC (gVI gS) -> kids_ok k kids).
  { intros k E1 E2 E3. unfold kids_ok. rewrite E2. replace (sdcheads k) with (sdcheads gS); [exact K|]. unfold sdcheads. rewrite E1, E3. reflexivity. }
  assert (ES : sdl h = sdl gS) by (unfold sdl, gp_PrimaryVertexIndexBound; rewrite EN, (v_X _ _ I); reflexivity).
  assert (EC : viSDC (gVI h) = viSDC (gVI gS)) by (rewrite (v_VI _ _ I); reflexivity).
  rewrite (kids_hd h1 kids v) by (try (apply K1; auto); cbn; lia). cbn [bind].
  unfold gp_SetVertexFuturePertinentChild. rewrite vi_guard by (cbn; lia). cbn [bind]. 
  set (h2 := set_gVI h1 (set_viFPChild (gVI h1) (upd (viFPChild (gVI h1)) v (hd NIL (kids v))))).
  unfold gp_GetVertexLeastAncestor. rewrite vi_ok by (cbn; lia). cbn [bind].
  assert (Lk : (length (kids v) < S (S (Z.to_nat (gN h2))))%nat).
  { pose proof (nodup_range_length (kids v) 1 (N + 1) (ho_nodup _ _ K v)) as Q. change (gN h2) with (gN h). rewrite EN.
    assert (Q' : Z.of_nat (length (kids v)) <= Z.max 0 (N + 1 - 1)); [|lia]. apply Q. intros x Hx. specialize (Kid _ _ Hx). lia. }
  destruct (low_loop_ok h2 kids v ltac:(apply K1; auto) ltac:(cbn; lia) (kids v) [] (S (S (Z.to_nat (gN h2)))) (viLeast (gVI h2) v) eq_refl Lk) as (m & Em & Lm & Cm & Xm).
  rewrite Em. cbn [bind]. unfold gp_SetVertexLowpoint. rewrite vi_guard by (cbn; lia). cbn [bind].
  set (h3 := set_gVI h2 (set_viLow (gVI h2) (upd (viLow (gVI h2)) v m))).
  unfold gp_GetVertexParent. rewrite vi_ok by (cbn; lia). cbn [bind].
  assert (Ep : viParent (gVI h3) = p) by (unfold h3, h2, h1; gsimp; rewrite (v_VI _ _ I); reflexivity). rewrite Ep.
  assert (Lv : viLeast (gVI h2) v = viLeast (gVI gS) v) by (unfold h2, h1; gsimp; rewrite (v_VI _ _ I); reflexivity). rewrite Lv in Lm, Xm.
  assert (Info : forall k, viVisited (gVI k) = viVisited (gVI h3) -> viFPChild (gVI k) = viFPChild (gVI h3) -> viLow (gVI k) = viLow (gVI h3) ->
    forall x, v - 1 < x <= N -> viVisited (gVI k) x = N /\ viFPChild (gVI k) x = hd NIL (kids x) /\ viLow (gVI k) x <= viLeast (gVI gS) x /\ (forall c, In c (kids x) -> viLow (gVI k) x <= viLow (gVI k) c) /\
      (viLow (gVI k) x = viLeast (gVI gS) x \/ exists c, In c (kids x) /\ viLow (gVI k) x = viLow (gVI k) c)).
  { intros k -> -> -> x Hx. unfold h3, h2, h1 in *. gsimp. gsimp_in Cm. gsimp_in Xm. unfold upd. destruct (Z.eqb_spec x v) as [->|Nx].
    - do 2 (split; [reflexivity|]). split; [exact Lm|]. split.
      + intros c Hc. destruct (Z.eqb_spec c v) as [->|]; [lia|]. now apply Cm.
      + destruct Xm as [Xm|(c & Hc & Xm)]; [now left|]. right. exists c. split; [exact Hc|]. destruct (Z.eqb_spec c v) as [->|]; [pose proof (Kid _ _ Hc); lia|exact Xm].
    - destruct (v_info _ _ I x ltac:(lia)) as (J1 & J2 & J3 & J4 & J5). do 3 (split; [assumption|]). split.
      + intros c Hc. destruct (Z.eqb_spec c v) as [->|]; [pose proof (Kid _ _ Hc); lia|]. now apply J4.
      + destruct J5 as [J5|(c & Hc & J5)]; [now left|]. right. exists c. split; [exact Hc|]. destruct (Z.eqb_spec c v) as [->|]; [pose proof (Kid _ _ Hc); lia|exact J5]. }
  assert (Ev : inV h3 v = true) by (unfold inV, gp_VertexIndexBound; change (gN h3) with (gN h); lia).
  assert (Ev' : inV h3 (N + v) = true) by (unfold inV, gp_VertexIndexBound; change (gN h3) with (gN h); lia).
  destruct (Z.eqb_spec (p v) NIL) as [Pv|Pv].
  - rewrite set_first by exact Ev. cbn [bind]. rewrite set_last by exact Ev. eexists. split; [reflexivity|].
    assert (Nt : forall x, v - 1 < x -> tarc x -> v < x) by (intros x Hx [_ Tx]; destruct (Z.eq_dec x v) as [->|]; [contradiction|lia]).
    pose proof Info as Info'. destruct I. constructor; try (unfold h3, h2, h1; gsimp; assumption).
    + unfold h3, h2, h1; gsimp. rewrite v_VI0. reflexivity.
    + intros e He. apply v_nx0. intros x Hx Tx. apply He; [lia|auto].
    + intros e He. apply v_nb0. intros x Hx Tx. apply He; [lia|auto].
    + intros x Hx Tx. pose proof (Nt x Hx Tx) as Hx'. unfold h3, h2, h1; gsimp. rewrite !upd_other by lia. now apply v_done0.
    + intros x Hx H1 Hp. gsimp. unfold upd. destruct (Z.eqb_spec x v); [auto|]. apply v_root0; auto; lia.
    + intros y Hy. gsimp. rewrite !upd_other by lia. now apply v_virt0.
    + apply Info'; reflexivity.
  - assert (Tv' : tarc v) by (split; auto). destruct (Tr _ Tv') as [R1 R2]. destruct (Tv _ Tv') as [F1 F2].
    unfold gp_GetRootFromDFSChild. change (gN h3) with (gN h). rewrite EN. replace (v + N) with (N + v) by lia.
    rewrite get_first by exact Ev'. cbn [bind]. change (vfirst h3 (N + v)) with (vfirst h (N + v)). rewrite (proj1 (v_virt _ _ I (N + v) ltac:(lia))), F1.
    assert (IE : forall k x, gCap k = gCap h -> inE gS x = true -> inE k x = true).
    { intros k x E1 E2. unfold inE, gp_EdgeIndexBound in *. rewrite E1, (v_cap _ _ I). exact E2. }
    assert (IV : forall k, gN k = gN h -> inV k v = true /\ inV k (N + v) = true) by (intros k E1; unfold inV, gp_VertexIndexBound; rewrite E1; lia).
    rewrite set_prev by (apply IE; auto). cbn [bind]. rewrite set_next by (apply IE; auto). cbn [bind].
    unfold gp_GetTwinArc. fold (twin (t v)). rewrite set_nbr by (apply IE; auto). cbn [bind].
    rewrite set_first by (apply IV; reflexivity). cbn [bind]. rewrite set_last by (apply IV; reflexivity). cbn [bind].
    rewrite set_prev by (apply IE; auto). cbn [bind]. rewrite set_next by (apply IE; auto). cbn [bind].
    rewrite wr_ext0 by (apply IV; reflexivity). cbn [bind]. rewrite wr_ext1 by (apply IV; reflexivity). cbn [bind].
    rewrite wr_ext0 by (apply IV; reflexivity). cbn [bind]. rewrite wr_ext1 by (apply IV; reflexivity). cbn [bind].
    eexists. split; [reflexivity|].
    pose proof Info as Info'. destruct I. constructor; try (unfold h3, h2, h1; gsimp; assumption).
    + unfold h3, h2, h1; gsimp. rewrite v_VI0. reflexivity.
    + unfold h3, h2, h1; gsimp. rewrite v_X0. reflexivity.
    + intros e He. unfold h3, h2, h1; gsimp. destruct (He v ltac:(lia) Tv') as [N1 N2]. rewrite !upd_other by auto. apply v_nx0. intros x Hx Tx. apply He; [lia|auto].
    + intros e He. unfold h3, h2, h1; gsimp. pose proof (He v ltac:(lia) Tv') as N1. rewrite !upd_other by auto. apply v_nb0. intros x Hx Tx. apply He; [lia|auto].
    + intros x Hx Tx. unfold h3, h2, h1; gsimp. destruct (Z.eq_dec x v) as [->|Nx].
      * rewrite !upd_same. rewrite !(upd_other _ v _ (N + v)) by lia. rewrite !upd_same.
        rewrite !(upd_other _ (twin (t v)) _ (t v)) by (apply Tt; auto). rewrite !upd_same. auto 12.
      * assert (A1 : t x <> t v) by (intros Q; apply Nx; now apply Ti).
        assert (A2 : t x <> twin (t v)) by (now apply Tt). assert (A3 : twin (t x) <> t v) by (apply not_eq_sym; now apply Tt).
        assert (A4 : twin (t x) <> twin (t v)) by (intros Q; apply A1; now apply tw_inj). destruct Tx as [Tx Tx'].
        rewrite !upd_other by (auto; lia). apply v_done0; [lia|split; auto].
    + intros x Hx H1 Hp. unfold h3, h2, h1; gsimp. assert (x <> v) by congruence. rewrite !upd_other by auto. apply v_root0; auto; lia.
    + intros y Hy. unfold h3, h2, h1; gsimp. rewrite !upd_other by lia. now apply v_virt0.
    + apply Info'; reflexivity.
Qed.

Lemma vloop_ok : exists h, for_down (Z.to_nat N) N einit_vertex gS = Ret h /\ iv 0 h.
Proof.
  assert (W : wp (for_down (Z.to_nat N) N einit_vertex gS) (iv (N - Z.of_nat (Z.to_nat N)))).
  { apply (for_down_inv iv); [apply iv_init|]. intros k s Hk I. destruct (vertex_ok k s ltac:(lia) I) as (h' & E & I'). rewrite E. exact I'. }
  apply wp_inv in W. destruct W as (h & E & I). exists h. split; [exact E|]. replace (N - Z.of_nat (Z.to_nat N)) with 0 in I by lia. exact I.
Qed.
End Loop.
