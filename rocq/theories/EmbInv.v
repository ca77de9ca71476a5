(** * EmbInv: the lists kept by the embedder (adjacency lists, forward arc lists, pertinent root
    lists, child lists) and what the elementary steps do to them. *)
From Coq Require Import ZifyBool Permutation.
From Verif Require Import Base BaseP GraphRec GraphM GraphSpec GSimp LinkP GraphP GraphP2 GraphP3 ListM ListSpec ListP DFSM TestM EmbM EmbSpec EmbP EmbP2 EmbP3 FaceP GeoP.

(** A circular doubly linked list of arcs. *)
Definition ring (nx pv : Z -> Z) (l : list Z) : Prop := linked nx pv (last l NIL) l (hd NIL l).
Lemma ring_remove nx pv nx' pv' l1 f l2 : ring nx pv (l1 ++ f :: l2) -> NoDup (l1 ++ f :: l2) ->
  (forall x, In x (l1 ++ l2) -> nx' x = if x =? pv f then nx f else nx x) ->
  (forall x, In x (l1 ++ l2) -> pv' x = if x =? nx f then pv f else pv x) ->
  ring nx' pv' (l1 ++ l2).
Proof.
  intros R Nd En Ep. unfold ring in *. rewrite linked_char in R. apply linked_char. intros a e b E.
  assert (Ie : In e (l1 ++ l2)) by (rewrite E; apply in_app_iff; right; now left).
  rewrite (En e Ie), (Ep e Ie). destruct (R l1 f l2 eq_refl) as [Pf Nf].
  pose proof (proj1 (NoDup_mid l1 l2 f) Nd) as [Nd' Nf'].
  set (P0 := last (l1 ++ f :: l2) NIL) in *. set (H0 := hd NIL (l1 ++ f :: l2)) in *.
  assert (E1 : last (l1 ++ l2) NIL = match l2 with [] => last l1 NIL | _ => P0 end).
  { unfold P0. destruct l2 as [|y l2]; [now rewrite app_nil_r|]. rewrite !last_app_ne by discriminate. reflexivity. }
  assert (E2 : hd NIL (l1 ++ l2) = match l1 with [] => hd NIL l2 | _ => H0 end).
  { unfold H0. destruct l1; reflexivity. }
  assert (Spl : (exists l2a, a = l1 ++ l2a /\ l2 = l2a ++ e :: b) \/ (exists l1b, l1 = a ++ e :: l1b /\ b = l1b ++ l2)).
  { clear - E. revert l1 E. induction a as [|x a IH]; intros l1 E; destruct l1 as [|y l1]; cbn [app] in E.
    - left. exists []. auto.
    - right. inversion E. subst. exists l1. auto.
    - left. exists (x :: a). auto.
    - inversion E. subst y. destruct (IH l1 H1) as [(m & -> & ->)|(m & -> & ->)].
      + left. exists m. auto.
      + right. exists m. auto. }
  destruct Spl as [(m & -> & ->)|(m & -> & ->)].
  - destruct (R (l1 ++ f :: m) e b ltac:(now rewrite <- app_assoc)) as [Pe Ne].
    assert (K1 : last (l1 ++ f :: m) P0 = last (f :: m) NIL).
    { rewrite last_app_ne by discriminate. destruct (list_snoc (f :: m)) as [K|(m' & y & ->)]; [discriminate|now rewrite !last_snoc]. }
    rewrite K1 in Pe. split.
    + destruct m as [|y m].
      * cbn [app] in *. rewrite Nf. cbn [hd]. rewrite Z.eqb_refl, Pf. rewrite app_nil_r. rewrite E1.
        destruct (list_snoc l1) as [->|(l1' & z & ->)]; [reflexivity|now rewrite !last_snoc].
      * rewrite Nf. cbn [app hd]. rewrite eqb_false_neq.
        2:{ intros ->. apply NoDup_app_r in Nd'. cbn [app] in Nd'. apply NoDup_cons_iff in Nd'. apply (proj1 Nd'). apply in_app_iff. right. now left. }
        rewrite Pe, last_app_ne by discriminate. destruct (list_snoc (y :: m)) as [K|(m' & z & K)]; [discriminate|]. rewrite K.
        change (f :: m' ++ [z]) with ((f :: m') ++ [z]). now rewrite !last_snoc.
    + rewrite Pf. destruct (Z.eqb_spec e (last l1 P0)) as [Ex|Ex].
      * destruct (list_snoc l1) as [->|(l1' & z & ->)].
        -- cbn [last] in Ex. unfold P0 in Ex. cbn [app] in *. destruct b as [|y b].
           ++ rewrite Nf. destruct m; cbn [app hd]; reflexivity.
           ++ exfalso.
              replace (f :: m ++ e :: y :: b) with ((f :: m ++ [e]) ++ y :: b) in Ex by (cbn; now rewrite <- app_assoc).
              rewrite last_app_ne in Ex by discriminate.
              apply NoDup_app_r in Nd'. apply NoDup_cons_iff in Nd'. apply (proj1 Nd'). rewrite Ex. apply last_in. discriminate.
        -- rewrite last_snoc in Ex. subst z. exfalso. apply (NoDup_app_disj _ _ e Nd'); apply in_app_iff; right; now left.
      * rewrite Ne. destruct b as [|y b]; [|reflexivity]. cbn [hd]. rewrite E2. destruct l1 as [|z l1]; [|reflexivity].
        exfalso. apply Ex. unfold P0. cbn [app last]. destruct m; cbn [app]; [reflexivity|].
        change (z :: m ++ [e]) with ((z :: m) ++ [e]). rewrite last_snoc. reflexivity.
  - destruct (R a e (m ++ f :: l2) ltac:(now rewrite <- app_assoc)) as [Pe Ne].
    split.
    + rewrite Nf. destruct (Z.eqb_spec e (hd H0 l2)) as [Ex|Ex].
      * destruct l2 as [|y l2].
        -- cbn [hd] in Ex. destruct a as [|x a].
           ++ rewrite Pf. destruct (list_snoc (e :: m)) as [K|(m' & z & K)]; [discriminate|]. cbn [app]. rewrite app_nil_r, K, !last_snoc. reflexivity.
           ++ exfalso. unfold H0 in Ex. cbn [app hd] in Ex. cbn [app] in Nd'. apply NoDup_cons_iff in Nd'. apply (proj1 Nd').
              rewrite <- Ex. rewrite app_nil_r. apply in_app_iff. right. now left.
        -- cbn [hd] in Ex. subst y. exfalso. apply (NoDup_app_disj _ _ e Nd'); [apply in_app_iff; right; now left|now left].
      * rewrite Pe. destruct a as [|x a]; [|destruct (list_snoc (x :: a)) as [K|(m' & z & K)]; [discriminate|now rewrite K, !last_snoc]].
        cbn [last]. rewrite E1. destruct l2 as [|y l2]; [|reflexivity]. exfalso. apply Ex. reflexivity.
    + rewrite Pf. destruct (Z.eqb_spec e (last (a ++ e :: m) P0)) as [Ex|Ex].
      * rewrite last_app_ne in Ex by discriminate. destruct m as [|y m].
        -- cbn [app]. rewrite Nf. destruct l2 as [|y l2]; [|reflexivity]. cbn [hd]. unfold H0. rewrite app_nil_r. destruct a; reflexivity.
        -- exfalso. rewrite <- app_assoc in Nd'. apply NoDup_app_r in Nd'. cbn [app] in Nd'. apply NoDup_cons_iff in Nd'. apply (proj1 Nd').
           change (last (e :: y :: m) P0) with (last (y :: m) P0) in Ex. rewrite Ex. apply (in_app_iff (y :: m) l2). left. apply last_in. discriminate.
      * rewrite Ne. destruct m as [|y m]; [|reflexivity]. exfalso. apply Ex. rewrite last_app_ne by discriminate. reflexivity.
Qed.

(** ** The state of the embedder *)
(** Apart from the partial embedding: forward arcs, pertinent roots, pertinent edge, future
    pertinent child and visited info of every vertex. *)
Record est := mkE { eV : gv; fw : Z -> list Z; prl : Z -> list Z; pe : Z -> Z; fpc : Z -> Z; vis : Z -> Z }.

(** What never changes while edges are added. *)
Record keeps (g0 g : graph) : Prop := {
  k_N : gN g = gN g0; k_M : gM g = gM g0; k_cap : gCap g = gCap g0;
  k_holes : gholes g = gholes g0; k_holesCap : gholesCap g = gholesCap g0; k_stackCap : gstackCap g = gstackCap g0;
  k_iflags : giflags g = giflags g0; k_embed : gembed g = gembed g0;
  k_parent : viParent (gVI g) = viParent (gVI g0); k_least : viLeast (gVI g) = viLeast (gVI g0);
  k_low : viLow (gVI g) = viLow (gVI g0); k_sdc : viSDC (gVI g) = viSDC (gVI g0);
  k_sdlp : sdlPrev (gX g) = sdlPrev (gX g0); k_sdln : sdlNext (gX g) = sdlNext (gX g0);
  k_index : forall x, 1 <= x <= gN g0 -> vindex g x = vindex g0 x /\ vflags g x = vflags g0 x }.
Lemma keeps_refl g : keeps g g.
Proof. constructor; auto. Qed.
Lemma keeps_trans a b c : keeps a b -> keeps b c -> keeps a c.
Proof.
  intros H1 H2. pose proof (k_N _ _ H1) as EN. destruct H1, H2. constructor; try congruence. intros x Hx.
  destruct (k_index0 x Hx) as [A1 A2], (k_index1 x) as [B1 B2]; [rewrite EN; auto|]. split; congruence.
Qed.

Definition prlheads (g : graph) (i : Z) : Z := if (1 <=? i) && (i <=? gN g) then viPertRoots (gVI g) i else NIL.
(** The graph [g], derived from [g0], is in state [a] with stack [stk]. *)
Record rp (g0 g : graph) (a : est) (stk : list Z) : Prop := {
  r_keeps : keeps g0 g;
  r_even : Z.even (gCap g) = true;
  r_chains : chains g (adj (eV a));
  r_nb : forall x, enbr g x = nb (eV a) x;
  r_fl : forall x, eflags g x = fl (eV a) x;
  r_e0 : forall x, ext0 (gX g) x = e0 (eV a) x;
  r_e1 : forall x, ext1 (gX g) x = e1 (eV a) x;
  r_fwhd : forall u, 1 <= u <= gN g -> viFwd (gVI g) u = hd NIL (fw a u);
  r_fwout : forall u, ~ 1 <= u <= gN g -> fw a u = [];
  r_ring : forall u, ring (enext g) (eprev g) (fw a u);
  r_fwnd : forall u, NoDup (fw a u);
  r_fwrange : forall u f, In f (fw a u) -> 2 <= f < gp_EdgeIndexBound g;
  r_fwdisj : forall u u' f, In f (fw a u) -> In f (fw a u') -> u = u';
  r_fwadj : forall u x f, In f (fw a u) -> ~ In f (adj (eV a) x);
  r_prl : holds (mkCl (brl g) (prlheads g)) (prl a);
  r_pe : forall x, viPertEdge (gVI g) x = pe a x;
  r_fpc : forall x, viFPChild (gVI g) x = fpc a x;
  r_vis : forall x, viVisited (gVI g) x = vis a x;
  r_stack : gstack g = stk }.

Lemma vi_ok fld g v : 1 <= v <= gN g -> rd_vi fld g v = Ret (fld (gVI g) v).
Proof. intros H. unfold rd_vi. apply guard_true. unfold inVI, gp_PrimaryVertexIndexBound. lia. Qed.
Lemma vi_guard {A} g v (k : res A) : 1 <= v <= gN g -> guard (inVI g v) k = k.
Proof. intros H. apply guard_true. unfold inVI, gp_PrimaryVertexIndexBound. lia. Qed.
Lemma chains_same g g' adj : chains g adj -> gN g' = gN g -> gCap g' = gCap g -> vfirst g' = vfirst g -> vlast g' = vlast g ->
  enext g' = enext g -> eprev g' = eprev g -> chains g' adj.
Proof.
  intros C E1 E2 E3 E4 E5 E6. apply (chains_agree g g' adj C E1); [unfold gp_EdgeIndexBound; lia|..]; intros; rewrite ?E3, ?E4, ?E5, ?E6; auto.
Qed.

Ltac vi1 := unfold gp_GetVertexParent, gp_GetVertexLeastAncestor, gp_GetVertexLowpoint, gp_GetVertexVisitedInfo, gp_GetVertexPertinentEdge,
  gp_GetVertexPertinentRootsList, gp_GetVertexFuturePertinentChild, gp_GetVertexSortedDFSChildList, gp_GetVertexFwdArcList; rewrite vi_ok by (gsimp; lia).
Ltac kp := match goal with H : rp _ _ _ _ |- keeps _ _ => destruct (r_keeps _ _ _ _ H); constructor; gsimp; auto end.
Ltac rpz H := pose proof (r_keeps _ _ _ _ H) as _KP; destruct H; constructor; gsimp; auto;
  [destruct _KP; constructor; gsimp; auto|..]; try (eapply chains_same; eauto; reflexivity).

(** The ghost components do not matter. *)
Lemma rp_ghost g0 g a stk V : rp g0 g a stk -> nb V = nb (eV a) -> fl V = fl (eV a) -> e0 V = e0 (eV a) -> e1 V = e1 (eV a) -> adj V = adj (eV a) ->
  rp g0 g (mkE V (fw a) (prl a) (pe a) (fpc a) (vis a)) stk.
Proof. intros [] E1 E2 E3 E4 E5. constructor; cbn [eV fw prl pe fpc vis]; rewrite ?E1, ?E2, ?E3, ?E4, ?E5; auto. Qed.
Lemma rp_ext g0 g a stk V F P p1 p2 p3 : rp g0 g a stk -> (forall x, nb V x = nb (eV a) x) -> (forall x, fl V x = fl (eV a) x) ->
  (forall x, e0 V x = e0 (eV a) x) -> (forall x, e1 V x = e1 (eV a) x) -> (forall x, adj V x = adj (eV a) x) ->
  (forall x, F x = fw a x) -> (forall x, P x = prl a x) -> (forall x, p1 x = pe a x) -> (forall x, p2 x = fpc a x) -> (forall x, p3 x = vis a x) ->
  rp g0 g (mkE V F P p1 p2 p3) stk.
Proof.
  intros [] E1 E2 E3 E4 E5 E6 E7 E8 E9 E10. constructor; cbn [eV fw prl pe fpc vis]; auto.
  - eapply chains_ext; [exact r_chains0|]. auto.
  - intros. rewrite E1. auto.
  - intros. rewrite E2. auto.
  - intros. rewrite E3. auto.
  - intros. rewrite E4. auto.
  - intros. rewrite E6. auto.
  - intros. rewrite E6. auto.
  - intros. rewrite E6. auto.
  - intros. rewrite E6. auto.
  - intros u f. rewrite E6. eauto.
  - intros u u' f. rewrite !E6. eauto.
  - intros u x f. rewrite E6, E5. eauto.
  - eapply holds_ext; [|exact r_prl0]. auto.
  - intros. rewrite E8. auto.
  - intros. rewrite E9. auto.
  - intros. rewrite E10. auto.
Qed.

Definition set_vis (a : est) (x i : Z) : est := mkE (eV a) (fw a) (prl a) (pe a) (fpc a) (upd (vis a) x i).
Definition set_pe (a : est) (x i : Z) : est := mkE (eV a) (fw a) (prl a) (upd (pe a) x i) (fpc a) (vis a).
Definition set_fpc (a : est) (x i : Z) : est := mkE (eV a) (fw a) (prl a) (pe a) (upd (fpc a) x i) (vis a).
Definition set_prl (a : est) (l : Z -> list Z) : est := mkE (eV a) (fw a) l (pe a) (fpc a) (vis a).

Lemma set_vis_ok g0 g a stk x i : rp g0 g a stk -> 1 <= x <= gN g0 ->
  exists g', gp_SetVertexVisitedInfo g x i = Ret g' /\ rp g0 g' (set_vis a x i) stk.
Proof.
  intros H Hx. unfold gp_SetVertexVisitedInfo. rewrite vi_guard by (rewrite (k_N _ _ (r_keeps _ _ _ _ H)); auto).
  eexists. split; [reflexivity|]. rpz H. intros y. unfold set_vis. cbn [vis]. unfold upd. now destruct (y =? x).
Qed.
Lemma set_pe_ok g0 g a stk x i : rp g0 g a stk -> 1 <= x <= gN g0 ->
  exists g', gp_SetVertexPertinentEdge g x i = Ret g' /\ rp g0 g' (set_pe a x i) stk.
Proof.
  intros H Hx. unfold gp_SetVertexPertinentEdge. rewrite vi_guard by (rewrite (k_N _ _ (r_keeps _ _ _ _ H)); auto).
  eexists. split; [reflexivity|]. rpz H. intros y. unfold set_pe. cbn [pe]. unfold upd. now destruct (y =? x).
Qed.
Lemma set_fpc_ok g0 g a stk x i : rp g0 g a stk -> 1 <= x <= gN g0 ->
  exists g', gp_SetVertexFuturePertinentChild g x i = Ret g' /\ rp g0 g' (set_fpc a x i) stk.
Proof.
  intros H Hx. unfold gp_SetVertexFuturePertinentChild. rewrite vi_guard by (rewrite (k_N _ _ (r_keeps _ _ _ _ H)); auto).
  eexists. split; [reflexivity|]. rpz H. intros y. unfold set_fpc. cbn [fpc]. unfold upd. now destruct (y =? x).
Qed.
Lemma rp_stack g0 g a stk s : rp g0 g a stk -> rp g0 (set_gstack g s) a s.
Proof. intros H. rpz H. Qed.
Lemma push2_ok g0 g a stk x y : rp g0 g a stk -> Z.of_nat (length stk) + 2 <= gstackCap g0 ->
  exists g', stk_push2 g x y = Ret g' /\ rp g0 g' a (y :: x :: stk).
Proof.
  intros H L. unfold stk_push2, stk_push. pose proof (k_stackCap _ _ (r_keeps _ _ _ _ H)) as KS. pose proof (r_stack _ _ _ _ H) as RS.
  rewrite guard_true by (rewrite KS, RS; lia). cbn [bind]. rewrite guard_true by (gsimp; rewrite KS, RS; cbn [length]; lia).
  eexists. split; [reflexivity|]. gsimp. rewrite RS. pose proof (rp_stack _ _ _ _ (y :: x :: stk) H) as H'. exact H'.
Qed.
Lemma pop2_ok g0 g a stk x y : rp g0 g a (y :: x :: stk) -> exists g', stk_pop2 g = Ret (g', x, y) /\ rp g0 g' a stk.
Proof.
  intros H. unfold stk_pop2, stk_pop. rewrite (r_stack _ _ _ _ H). cbn [bind]. gsimp.
  eexists. split; [reflexivity|]. exact (rp_stack _ _ _ _ stk H).
Qed.

(** ** Pertinent roots *)
Lemma prl_step g0 g a stk o0 s' z : rp g0 g a stk -> 1 <= z <= gN g0 ->
  lcN (cl_c s') = lcN (brl g) -> holds s' (lspec (prl a) o0) -> (forall i, cl_heads s' i = upd (prlheads g) z (cl_heads s' z) i) ->
  exists g', gp_SetVertexPertinentRootsList (put_brl g (cl_c s')) z (cl_heads s' z) = Ret g' /\ rp g0 g' (set_prl a (lspec (prl a) o0)) stk.
Proof.
  intros H Hz EN Hh Eh. pose proof (k_N _ _ (r_keeps _ _ _ _ H)) as KN.
  unfold gp_SetVertexPertinentRootsList. rewrite vi_guard by (unfold put_brl; gsimp; lia).
  eexists. split; [reflexivity|]. unfold put_brl. rpz H.
  unfold set_prl. cbn [prl].
  match goal with |- holds (mkCl (brl ?G) _) _ => assert (EB : brl G = cl_c s') end.
  { unfold brl in *. gsimp. unfold gp_PrimaryVertexIndexBound in *. gsimp. cbn [lcN] in EN. destruct (cl_c s') as [n0 nx0 pv0]; cbn [lcN lcnext lcprev] in *. now subst. }
  rewrite EB. destruct Hh as [h1 h2 h3 h4 h5 h6]. constructor; auto.
  - intros i. rewrite <- h1. cbn [cl_heads]. transitivity (upd (prlheads g) z (cl_heads s' z) i); [|symmetry; apply Eh].
    unfold prlheads, upd. gsimp. destruct (Z.eqb_spec i z) as [->|Ne]; [|reflexivity]. now replace ((1 <=? z) && (z <=? gN g)) with true by lia.
Qed.
Lemma append_root_ok g0 g a stk z c : rp g0 g a stk -> 1 <= z <= gN g0 -> 1 <= c <= gN g0 -> (forall j, ~ In c (prl a j)) ->
  exists g', gp_AppendVertexPertinentRoot g z (c + gN g) = Ret g' /\ rp g0 g' (set_prl a (upd (prl a) z (prl a z ++ [c]))) stk.
Proof.
  intros H Hz Hc Fr. pose proof (k_N _ _ (r_keeps _ _ _ _ H)) as KN. unfold gp_AppendVertexPertinentRoot, gp_GetDFSChildFromRoot. vi1. cbn [bind].
  destruct (mlstep_refines _ _ (LAppend z c) (r_prl _ _ _ _ H)) as (s' & E1 & E2 & E3).
  { cbn [lop_valid cl_c brl lcN]. unfold free_node, gp_PrimaryVertexIndexBound. split; [lia|auto]. }
  replace (c + gN g - gN g) with c by lia. cbn [mlstep cl_heads cl_c] in E1. unfold prlheads at 1 in E1. replace ((1 <=? z) && (z <=? gN g)) with true in E1 by lia.
  destruct (mLCAppend (brl g) (viPertRoots (gVI g) z) c) as [[h c']| |]; try discriminate. cbn [bind] in *. injection E1 as <-. cbn [cl_c cl_heads] in *.
  destruct (prl_step g0 g a stk (LAppend z c) (mkCl c' (upd (prlheads g) z h)) z H Hz E2 E3) as (g' & F1 & F2).
  { intros i. cbn [cl_heads]. rewrite upd_same. reflexivity. }
  cbn [cl_c cl_heads] in F1. rewrite upd_same in F1. exists g'. auto.
Qed.
Lemma prepend_root_ok g0 g a stk z c : rp g0 g a stk -> 1 <= z <= gN g0 -> 1 <= c <= gN g0 -> (forall j, ~ In c (prl a j)) ->
  exists g', gp_PrependVertexPertinentRoot g z (c + gN g) = Ret g' /\ rp g0 g' (set_prl a (upd (prl a) z (c :: prl a z))) stk.
Proof.
  intros H Hz Hc Fr. pose proof (k_N _ _ (r_keeps _ _ _ _ H)) as KN. unfold gp_PrependVertexPertinentRoot, gp_GetDFSChildFromRoot. vi1. cbn [bind].
  destruct (mlstep_refines _ _ (LPrepend z c) (r_prl _ _ _ _ H)) as (s' & E1 & E2 & E3).
  { cbn [lop_valid cl_c brl lcN]. unfold free_node, gp_PrimaryVertexIndexBound. split; [lia|auto]. }
  replace (c + gN g - gN g) with c by lia. cbn [mlstep cl_heads cl_c] in E1. unfold prlheads at 1 in E1. replace ((1 <=? z) && (z <=? gN g)) with true in E1 by lia.
  destruct (mLCPrepend (brl g) (viPertRoots (gVI g) z) c) as [[h c']| |]; try discriminate. cbn [bind] in *. injection E1 as <-. cbn [cl_c cl_heads] in *.
  destruct (prl_step g0 g a stk (LPrepend z c) (mkCl c' (upd (prlheads g) z h)) z H Hz E2 E3) as (g' & F1 & F2).
  { intros i. cbn [cl_heads]. rewrite upd_same. reflexivity. }
  cbn [cl_c cl_heads] in F1. rewrite upd_same in F1. exists g'. auto.
Qed.
Lemma delete_root_ok g0 g a stk z c : rp g0 g a stk -> 1 <= z <= gN g0 -> In c (prl a z) ->
  exists g', gp_DeleteVertexPertinentRoot g z (c + gN g) = Ret g' /\ rp g0 g' (set_prl a (upd (prl a) z (remove Z.eq_dec c (prl a z)))) stk.
Proof.
  intros H Hz Hc. pose proof (k_N _ _ (r_keeps _ _ _ _ H)) as KN. unfold gp_DeleteVertexPertinentRoot, gp_GetDFSChildFromRoot. vi1. cbn [bind].
  destruct (mlstep_refines _ _ (LDelete z c) (r_prl _ _ _ _ H) Hc) as (s' & E1 & E2 & E3).
  replace (c + gN g - gN g) with c by lia. cbn [mlstep cl_heads cl_c] in E1. unfold prlheads at 1 in E1. replace ((1 <=? z) && (z <=? gN g)) with true in E1 by lia.
  destruct (mLCDelete (brl g) (viPertRoots (gVI g) z) c) as [[h c']| |]; try discriminate. cbn [bind] in *. injection E1 as <-. cbn [cl_c cl_heads] in *.
  destruct (prl_step g0 g a stk (LDelete z c) (mkCl c' (upd (prlheads g) z h)) z H Hz E2 E3) as (g' & F1 & F2).
  { intros i. cbn [cl_heads]. rewrite upd_same. reflexivity. }
  cbn [cl_c cl_heads] in F1. rewrite upd_same in F1. exists g'. auto.
Qed.
Lemma reset_roots_ok g0 g a stk z : rp g0 g a stk -> 1 <= z <= gN g0 ->
  exists g', gp_SetVertexPertinentRootsList g z NIL = Ret g' /\ rp g0 g' (set_prl a (upd (prl a) z [])) stk.
Proof.
  intros H Hz. pose proof (k_N _ _ (r_keeps _ _ _ _ H)) as KN. unfold gp_SetVertexPertinentRootsList. rewrite vi_guard by lia.
  eexists. split; [reflexivity|]. rpz H. unfold set_prl. cbn [prl]. destruct r_prl0 as [h1 h2 h3 h4 h5 h6]. cbn [cl_heads cl_c] in *. constructor; cbn [cl_heads cl_c].
  - intros i. unfold prlheads, upd in *. gsimp. destruct (Z.eqb_spec i z) as [->|]; [|apply h1]. now destruct ((1 <=? z) && (z <=? gN g)).
  - intros i. unfold upd. destruct (i =? z); [exact Logic.I|apply h2].
  - intros i. unfold upd. destruct (i =? z); [constructor|apply h3].
  - intros i x. unfold upd. destruct (i =? z); [intros []|apply h4].
  - intros i j x. unfold upd. destruct (i =? z); [intros []|]. destruct (j =? z); [intros _ []|apply h5].
  - exact h6.
Qed.
Lemma roots_head g0 g a stk z : rp g0 g a stk -> 1 <= z <= gN g0 -> gp_GetVertexPertinentRootsList g z = Ret (hd NIL (prl a z)).
Proof.
  intros H Hz. pose proof (k_N _ _ (r_keeps _ _ _ _ H)) as KN. vi1. f_equal. pose proof (ho_head _ _ (r_prl _ _ _ _ H) z) as E. cbn [cl_heads] in E.
  rewrite <- E. unfold prlheads. now replace ((1 <=? z) && (z <=? gN g)) with true by lia.
Qed.
Lemma prl_range g0 g a stk z c : rp g0 g a stk -> In c (prl a z) -> 1 <= c <= gN g0 /\ 1 <= z <= gN g0.
Proof.
  intros H Hc. pose proof (k_N _ _ (r_keeps _ _ _ _ H)) as KN. pose proof (ho_range _ _ (r_prl _ _ _ _ H) z c Hc) as R.
  cbn [cl_c brl lcN] in R. unfold gp_PrimaryVertexIndexBound in R. split; [lia|]. pose proof (ho_head _ _ (r_prl _ _ _ _ H) z) as E. cbn [cl_heads] in E. unfold prlheads in E.
  destruct ((1 <=? z) && (z <=? gN g)) eqn:Q; [lia|]. exfalso. destruct (prl a z) as [|y l] eqn:El; [destruct Hc|]. cbn [hd] in E.
  assert (In y (prl a z)) by (rewrite El; now left). pose proof (ho_range _ _ (r_prl _ _ _ _ H) z y H0). unfold NIL in *. lia.
Qed.

(** ** Children *)
Definition sdcheads (g : graph) (i : Z) : Z := if (1 <=? i) && (i <=? gN g) then viSDC (gVI g) i else NIL.
Definition kids_ok (g0 : graph) (kids : Z -> list Z) : Prop := holds (mkCl (sdl g0) (sdcheads g0)) kids.
Lemma kids_head g0 g a stk kids z : rp g0 g a stk -> kids_ok g0 kids -> 1 <= z <= gN g0 -> gp_GetVertexSortedDFSChildList g z = Ret (hd NIL (kids z)).
Proof.
  intros H K Hz. pose proof (k_N _ _ (r_keeps _ _ _ _ H)) as KN. vi1. f_equal. pose proof (ho_head _ _ K z) as E. cbn [cl_heads] in E.
  rewrite <- E. unfold sdcheads. replace ((1 <=? z) && (z <=? gN g0)) with true by lia. now rewrite (k_sdc _ _ (r_keeps _ _ _ _ H)).
Qed.
Lemma circular_next c l1 x l2 : circular c (l1 ++ x :: l2) -> lcnext c x = hd (hd NIL (l1 ++ x :: l2)) l2.
Proof.
  intros C. destruct (l1 ++ x :: l2) as [|h t] eqn:E; [destruct l1; discriminate|]. cbn [circular] in C. rewrite <- E in C. cbn [hd].
  assert (J : joined c (l1 ++ x :: (l2 ++ [h]))) by (rewrite <- app_assoc in C; exact C).
  clear E. induction l1 as [|y l1 IH].
  - cbn [app] in J. destruct l2 as [|z l2]; cbn [app joined hd] in *; tauto.
  - apply IH.
    + destruct l1; cbn [app joined] in *; tauto.
    + destruct l1; cbn [app joined] in *; tauto.
Qed.
Lemma next_child g0 g a stk kids z c l1 l2 : rp g0 g a stk -> kids_ok g0 kids -> 1 <= z <= gN g0 -> kids z = l1 ++ c :: l2 ->
  gp_GetVertexNextDFSChild g z c = Ret (hd NIL l2).
Proof.
  intros H K Hz E. unfold gp_GetVertexNextDFSChild. rewrite (kids_head _ _ _ _ _ _ H K Hz). cbn [bind].
  pose proof (r_keeps _ _ _ _ H) as KP. unfold mLCGetNext.
  assert (ES : sdl g = sdl g0) by (unfold sdl, gp_PrimaryVertexIndexBound; destruct KP; congruence). rewrite ES.
  pose proof (ho_range _ _ K z c ltac:(rewrite E; apply in_app_iff; right; now left)) as R. cbn [cl_c] in R.
  rewrite rd_next_ok by lia. cbn [bind]. pose proof (ho_circ _ _ K z) as Ci. cbn [cl_c] in Ci. rewrite E in *. rewrite (circular_next _ _ _ _ Ci).
  destruct l2 as [|y l2]; cbn [hd].
  - now rewrite Z.eqb_refl.
  - rewrite eqb_false_neq; [reflexivity|]. pose proof (ho_nodup _ _ K z) as Nd. rewrite E in Nd. intros Q.
    destruct l1 as [|h l1]; cbn [app hd] in *; subst.
    + apply NoDup_cons_iff in Nd. apply (proj1 Nd). now left.
    + apply NoDup_cons_iff in Nd. apply (proj1 Nd). apply in_app_iff. right. right. now left.
Qed.

(** ** Reading *)
Lemma isv_iff g0 g a stk x : rp g0 g a stk -> is_vertex g x <-> 1 <= x <= 2 * gN g0.
Proof. intros H. pose proof (k_N _ _ (r_keeps _ _ _ _ H)) as KN. unfold is_vertex, gp_VertexIndexBound. lia. Qed.
Lemma inV_ok g0 g a stk x : rp g0 g a stk -> 1 <= x <= 2 * gN g0 -> inV g x = true.
Proof. intros H Hx. apply inV_true. now apply (isv_iff _ _ _ _ _ H). Qed.
Lemma inE_ok g0 g a stk x : rp g0 g a stk -> 2 <= x < gp_EdgeIndexBound g0 -> inE g x = true.
Proof. intros H Hx. apply inE_true. pose proof (k_cap _ _ (r_keeps _ _ _ _ H)). unfold gp_EdgeIndexBound in *. lia. Qed.
Lemma rp_first g0 g a stk x : rp g0 g a stk -> 1 <= x <= 2 * gN g0 -> gp_GetFirstArc g x = Ret (hd NIL (adj (eV a) x)).
Proof.
  intros H Hx. rewrite get_first by (eapply inV_ok; eauto). f_equal. apply (ch_first _ _ (r_chains _ _ _ _ H)). now apply (isv_iff _ _ _ _ _ H).
Qed.
Lemma rp_last g0 g a stk x : rp g0 g a stk -> 1 <= x <= 2 * gN g0 -> gp_GetLastArc g x = Ret (last (adj (eV a) x) NIL).
Proof.
  intros H Hx. rewrite get_last by (eapply inV_ok; eauto). f_equal. apply (ch_last _ _ (r_chains _ _ _ _ H)). now apply (isv_iff _ _ _ _ _ H).
Qed.
Lemma rp_ne g0 g a stk x e : rp g0 g a stk -> In e (adj (eV a) x) -> e <> NIL.
Proof. intros H. apply (ch_nonnil _ _ _ _ (r_chains _ _ _ _ H)). Qed.
Lemma rp_inuse g0 g a stk x : rp g0 g a stk -> 1 <= x <= 2 * gN g0 -> gp_VirtualVertexInUse g x = Ret (negb (isnil (adj (eV a) x))).
Proof.
  intros H Hx. unfold gp_VirtualVertexInUse. rewrite (rp_first _ _ _ _ _ H Hx). cbn [bind]. f_equal. f_equal.
  destruct (adj (eV a) x) as [|e l] eqn:E; cbn [hd isnil]; [reflexivity|]. apply eqb_false_neq.
  apply (rp_ne _ _ _ _ x e H). rewrite E. now left.
Qed.
Lemma rp_ext_get g0 g a stk x i : rp g0 g a stk -> 1 <= x <= 2 * gN g0 -> i = 0 \/ i = 1 ->
  gp_GetExtFaceVertex g x i = Ret (if i =? 0 then e0 (eV a) x else e1 (eV a) x).
Proof.
  intros H Hx [-> | ->].
  - rewrite rd_ext0 by (eapply inV_ok; eauto). now rewrite (r_e0 _ _ _ _ H).
  - rewrite rd_ext1 by (eapply inV_ok; eauto). now rewrite (r_e1 _ _ _ _ H).
Qed.

Definition set_V (a : est) (V : gv) : est := mkE V (fw a) (prl a) (pe a) (fpc a) (vis a).
Definition set_fw (a : est) (F : Z -> list Z) : est := mkE (eV a) F (prl a) (pe a) (fpc a) (vis a).
Definition v_adj (s : gv) (A : Z -> list Z) : gv := mkGV (nb s) (fl s) (e0 s) (e1 s) A (o s) (X s) (B s).
Definition v_nb (s : gv) (A : Z -> Z) : gv := mkGV A (fl s) (e0 s) (e1 s) (adj s) (o s) (X s) (B s).
Definition v_fl (s : gv) (A : Z -> Z) : gv := mkGV (nb s) A (e0 s) (e1 s) (adj s) (o s) (X s) (B s).
Definition v_ext (s : gv) (A C : Z -> Z) : gv := mkGV (nb s) (fl s) A C (adj s) (o s) (X s) (B s).
Definition v_gh (s : gv) (O : Z -> bool) (Y : Z -> list Z) (C : Z -> Z) : gv := mkGV (nb s) (fl s) (e0 s) (e1 s) (adj s) O Y C.

Lemma set_ext_ok g0 g a stk x i y : rp g0 g a stk -> 1 <= x <= 2 * gN g0 -> i = 0 \/ i = 1 ->
  exists g', gp_SetExtFaceVertex g x i y = Ret g' /\
    rp g0 g' (set_V a (v_ext (eV a) (if i =? 0 then upd (e0 (eV a)) x y else e0 (eV a)) (if i =? 0 then e1 (eV a) else upd (e1 (eV a)) x y))) stk.
Proof.
  intros H Hx [-> | ->]; [rewrite wr_ext0 by (eapply inV_ok; eauto)|rewrite wr_ext1 by (eapply inV_ok; eauto)];
    (eexists; split; [reflexivity|]); rpz H; intros z; unfold set_V, v_ext; cbn [eV e0 e1 Z.eqb]; unfold upd; destruct (z =? x); auto.
Qed.
Lemma set_nbr_ok g0 g a stk e y : rp g0 g a stk -> 2 <= e < gp_EdgeIndexBound g0 ->
  exists g', gp_SetNeighbor g e y = Ret g' /\ rp g0 g' (set_V a (v_nb (eV a) (upd (nb (eV a)) e y))) stk.
Proof.
  intros H Hx. rewrite set_nbr by (eapply inE_ok; eauto). eexists. split; [reflexivity|]. rpz H.
  intros z. unfold set_V, v_nb. cbn [eV nb]. unfold upd. destruct (z =? e); auto.
Qed.

(** ** Future pertinent child *)
Lemma update_fpc_ok g0 kids w v : kids_ok g0 kids -> 1 <= w <= gN g0 -> forall n g a stk l1 l2,
  rp g0 g a stk -> kids w = l1 ++ l2 -> fpc a w = hd NIL l2 -> (length l2 < n)%nat ->
  exists g' m1 m2, update_fpc n g w v = Ret g' /\ rp g0 g' (set_fpc a w (hd NIL m2)) stk /\ l2 = m1 ++ m2 /\
    (forall c, In c m1 -> v <= viLow (gVI g0) c \/ adj (eV a) (c + gN g0) = []) /\
    (m2 = [] \/ (viLow (gVI g0) (hd NIL m2) < v /\ adj (eV a) (hd NIL m2 + gN g0) <> [])).
Proof.
  intros K Hw. induction n as [|n IH]; intros g a stk l1 l2 H Ek Ef L; [lia|].
  pose proof (k_N _ _ (r_keeps _ _ _ _ H)) as KN. cbn [update_fpc]. vi1. cbn [bind]. rewrite (r_fpc _ _ _ _ H), Ef.
  assert (Same : rp g0 g (set_fpc a w (hd NIL l2)) stk).
  { unfold set_fpc. apply (rp_ext _ _ _ _ (eV a) (fw a) (prl a) (pe a) _ (vis a) H); auto. intros x. unfold upd. destruct (Z.eqb_spec x w) as [->|]; auto. }
  destruct l2 as [|c l2]; cbn [hd] in *.
  - rewrite Z.eqb_refl. exists g, [], []. split; [auto|]. split; [auto|]. split; [auto|]. split; [intros c []|now left].
  - pose proof (ho_range _ _ K w c ltac:(rewrite Ek; apply in_app_iff; right; now left)) as Rc. cbn [cl_c sdl lcN] in Rc. unfold gp_PrimaryVertexIndexBound in Rc.
    rewrite eqb_false_neq by (unfold NIL; lia). vi1. cbn [bind]. rewrite (k_low _ _ (r_keeps _ _ _ _ H)). unfold gp_GetRootFromDFSChild. rewrite KN.
    assert (St : forall k, (forall x, In x (c :: nil) -> v <= viLow (gVI g0) x \/ adj (eV a) (x + gN g0) = []) ->
       k = (c' <- gp_GetVertexNextDFSChild g w c;; g1 <- gp_SetVertexFuturePertinentChild g w c';; update_fpc n g1 w v) ->
       exists g' m1 m2, k = Ret g' /\ rp g0 g' (set_fpc a w (hd NIL m2)) stk /\ c :: l2 = m1 ++ m2 /\
       (forall x, In x m1 -> v <= viLow (gVI g0) x \/ adj (eV a) (x + gN g0) = []) /\
       (m2 = [] \/ (viLow (gVI g0) (hd NIL m2) < v /\ adj (eV a) (hd NIL m2 + gN g0) <> []))).
    { intros k Hc ->. rewrite (next_child _ _ _ _ _ _ _ _ _ H K Hw Ek). cbn [bind].
      destruct (set_fpc_ok _ _ _ _ w (hd NIL l2) H Hw) as (g1 & E1 & H1). rewrite E1. cbn [bind].
      destruct (IH g1 _ stk (l1 ++ [c]) l2 H1) as (g' & m1 & m2 & A1 & A2 & A3 & A4 & A5).
      - now rewrite <- app_assoc.
      - cbn [set_fpc fpc]. now rewrite upd_same.
      - cbn [length] in L. lia.
      - exists g', (c :: m1), m2. split; [auto|]. split.
        + apply (rp_ext _ _ _ _ (eV a) (fw a) (prl a) (pe a) (upd (fpc a) w (hd NIL m2)) (vis a) A2); auto.
          intros x. cbn [set_fpc fpc]. unfold upd. now destruct (x =? w).
        + split; [cbn; congruence|]. split; [|exact A5]. intros x [<-|Hx]; [apply Hc; now left|now apply A4]. }
    destruct (Z.leb_spec v (viLow (gVI g0) c)) as [Le|Gt]; cbn [bind negb].
    + apply St; [|reflexivity]. intros x [<-|[]]. now left.
    + rewrite (rp_inuse _ _ _ _ _ H) by lia. cbn [bind]. destruct (adj (eV a) (c + gN g0)) as [|e l] eqn:Ea; cbn [isnil negb].
      * apply St; [|reflexivity]. intros x [<-|[]]. now right.
      * exists g, [], (c :: l2). split; [auto|]. split; [auto|]. split; [auto|]. split; [intros x []|]. right. cbn [hd]. split; [lia|]. rewrite Ea. discriminate.
Qed.

(** ** Forward arcs *)
Lemma ring_ext nx pv nx' pv' l : (forall e, In e l -> nx' e = nx e /\ pv' e = pv e) -> ring nx pv l -> ring nx' pv' l.
Proof. intros E. unfold ring. now apply linked_ext. Qed.
Lemma ring_at nx pv l1 f l2 : ring nx pv (l1 ++ f :: l2) -> nx f = hd (hd NIL (l1 ++ f :: l2)) l2 /\ pv f = last l1 (last (l1 ++ f :: l2) NIL).
Proof. intros R. unfold ring in R. rewrite linked_char in R. destruct (R l1 f l2 eq_refl) as [A C]. auto. Qed.
Lemma ring_next_in nx pv l f : ring nx pv l -> In f l -> In (nx f) l /\ In (pv f) l.
Proof.
  intros R Hf. apply in_split in Hf. destruct Hf as (l1 & l2 & ->). destruct (ring_at _ _ _ _ _ R) as [-> ->]. split.
  - destruct l2 as [|y l2]; cbn [hd].
    + apply hd_in. destruct l1; discriminate.
    + apply in_app_iff. right. right. now left.
  - destruct (list_snoc l1) as [->|(l1' & z & ->)].
    + exact (last_in ([] ++ f :: l2) NIL ltac:(discriminate)).
    + rewrite last_snoc. apply in_app_iff. left. apply in_app_iff. right. now left.
Qed.
Lemma take_fwd_ok g0 g a stk u l1 f l2 : rp g0 g a stk -> 1 <= u <= gN g0 -> fw a u = l1 ++ f :: l2 ->
  exists g', take_fwd g u f = Ret g' /\ rp g0 g' (set_fw a (upd (fw a) u (l1 ++ l2))) stk.
Proof.
  intros H Hu E. pose proof (k_N _ _ (r_keeps _ _ _ _ H)) as KN. pose proof (k_cap _ _ (r_keeps _ _ _ _ H)) as KC.
  pose proof (r_ring _ _ _ _ H u) as R. pose proof (r_fwnd _ _ _ _ H u) as Nd. rewrite E in R, Nd.
  assert (Hf : In f (fw a u)) by (rewrite E; apply in_app_iff; right; now left).
  destruct (ring_at _ _ _ _ _ R) as [Nf Pf]. pose proof (r_fwrange _ _ _ _ H u) as Rg.
  destruct (ring_next_in _ _ _ f (r_ring _ _ _ _ H u) Hf) as [In1 In2].
  pose proof (Rg _ Hf) as Rf. pose proof (Rg _ In1) as Rn. pose proof (Rg _ In2) as Rv.
  unfold take_fwd. unfold gp_GetVertexFwdArcList at 1. rewrite vi_ok by lia. cbn [bind]. rewrite (r_fwhd _ _ _ _ H u ltac:(lia)), E.
  pose proof (proj1 (NoDup_mid l1 l2 f) Nd) as [Nd' Nf'].
  assert (A : (exists w, (if hd NIL (l1 ++ f :: l2) =? f then
       n <- gp_GetNextArc g f;; g1 <- gp_SetVertexFwdArcList g u n;; h <- gp_GetVertexFwdArcList g1 u;;
       (if h =? f then gp_SetVertexFwdArcList g1 u NIL else Ret g1) else Ret g) = Ret (set_gVI g (set_viFwd (gVI g) w)) /\
       forall x, w x = upd (viFwd (gVI g)) u (hd NIL (l1 ++ l2)) x)).
  { destruct l1 as [|y l1]; cbn [app hd].
    - rewrite Z.eqb_refl. run. unfold gp_SetVertexFwdArcList at 1. rewrite vi_guard by lia. cbn [bind]. unfold gp_GetVertexFwdArcList. rewrite vi_ok by (gsimp; lia). gsimp. rewrite upd_same.
      rewrite Nf. cbn [app hd]. destruct l2 as [|z l2]; cbn [hd].
      + rewrite Z.eqb_refl. unfold gp_SetVertexFwdArcList. rewrite vi_guard by (gsimp; lia). eexists. split; [reflexivity|]. intros x. gsimp. unfold upd. now destruct (x =? u).
      + rewrite eqb_false_neq by (intros ->; apply Nf'; now left). eexists. split; [reflexivity|]. auto.
    - rewrite eqb_false_neq by (intros ->; apply Nf'; now left). exists (viFwd (gVI g)). split; [destruct g as [? ? ? ? ? ? ? ? ? ? ? ? ? ? ? ? ? V ?]; gsimp; destruct V; reflexivity|].
      intros x. unfold upd. destruct (Z.eqb_spec x u) as [->|]; [|reflexivity]. rewrite (r_fwhd _ _ _ _ H u ltac:(lia)), E. reflexivity. }
  assert (Kn : upd (enext g) (eprev g f) (enext g f) f = enext g f) by (unfold upd; now destruct (f =? eprev g f)).
  destruct A as (w & -> & Ew). cbn [bind]. run. gsimp. rewrite Kn. run. gsimp. eexists. split; [reflexivity|].
  pose proof (r_fwdisj _ _ _ _ H) as Dj. pose proof (r_fwadj _ _ _ _ H) as Da.
  assert (Fr1 : forall x, ~ In x (fw a u) -> upd (enext g) (eprev g f) (enext g f) x = enext g x).
  { intros x Hx. apply upd_other. intros ->. contradiction. }
  assert (Fr2 : forall x, ~ In x (fw a u) -> upd (eprev g) (enext g f) (eprev g f) x = eprev g x).
  { intros x Hx. apply upd_other. intros ->. contradiction. }
  assert (Sub : forall u' x, In x (upd (fw a) u (l1 ++ l2) u') -> In x (fw a u')).
  { intros u' x. unfold upd. destruct (Z.eqb_spec u' u) as [->|]; [|auto]. rewrite E. intros Hx. apply in_app_iff in Hx. apply in_app_iff. destruct Hx; [auto|right; now right]. }
  pose proof (r_keeps _ _ _ _ H) as KP. destruct H. unfold set_fw. constructor; cbn [eV fw prl pe fpc vis]; gsimp; auto.
  - destruct KP; constructor; gsimp; auto.
  - apply (chains_agree g _ _ r_chains0); gsimp; auto; [unfold gp_EdgeIndexBound; gsimp; lia|].
    intros x e9 He. split; [apply Fr1|apply Fr2]; intros Q; exact (Da _ _ _ Q He).
  - intros u' Hu'. rewrite Ew. unfold upd. destruct (Z.eqb_spec u' u) as [->|]; auto.
  - intros u' Hu'. unfold upd. destruct (Z.eqb_spec u' u) as [->|]; [lia|auto].
  - intros u'. unfold upd at 3. destruct (Z.eqb_spec u' u) as [->|Ne].
    + apply (ring_remove (enext g) (eprev g) _ _ l1 f l2 R Nd); intros x Hx; unfold upd.
      * now destruct (x =? eprev g f).
      * now destruct (x =? enext g f).
    + eapply ring_ext; [|apply r_ring0]. intros x Hx. split; [apply Fr1|apply Fr2]; intros Q; apply Ne; eapply Dj; eauto.
  - intros u'. unfold upd. destruct (Z.eqb_spec u' u) as [->|]; auto.
  - intros u' x Hx. apply (r_fwrange0 u'). auto.
  - intros u1 u2 x H1 H2. eapply Dj; eauto.
  - intros u' x f' Hx. eapply Da. eauto.
Qed.

(** ** A new arc at the end of a list *)
Definition end_lists (A : Z -> list Z) (x side e : Z) : Z -> list Z := upd A x (if side =? 0 then e :: A x else A x ++ [e]).
Lemma add_end_ok g0 g a stk x side e : rp g0 g a stk -> 1 <= x <= 2 * gN g0 -> side = 0 \/ side = 1 -> adj (eV a) x <> [] ->
  2 <= e < gp_EdgeIndexBound g0 -> (forall y, ~ In e (adj (eV a) y)) -> (forall u, ~ In e (fw a u)) ->
  exists g', add_end g x side e = Ret g' /\ rp g0 g' (set_V a (v_adj (eV a) (end_lists (adj (eV a)) x side e))) stk.
Proof.
  intros H Hx Hs Ne Re Na Nf. pose proof (k_N _ _ (r_keeps _ _ _ _ H)) as KN. pose proof (k_cap _ _ (r_keeps _ _ _ _ H)) as KC.
  pose proof (r_chains _ _ _ _ H) as C. assert (Vx : is_vertex g x) by now apply (isv_iff _ _ _ _ _ H).
  assert (IV : inV g x = true) by (eapply inV_ok; eauto). assert (IE : inE g e = true) by (eapply inE_ok; eauto).
  pose proof (ch_first _ _ C x Vx) as Ff. pose proof (ch_last _ _ C x Vx) as Fl.
  pose proof (hd_in (adj (eV a) x) NIL Ne) as Hh. pose proof (last_in (adj (eV a) x) NIL Ne) as Hl.
  pose proof (ch_range _ _ C _ _ Hh) as Rh. pose proof (ch_range _ _ C _ _ Hl) as Rl. rewrite <- Ff in Rh, Hh. rewrite <- Fl in Rl, Hl.
  assert (N1 : vfirst g x <> e) by (intros Q; rewrite Q in Hh; exact (Na _ Hh)).
  assert (N2 : vlast g x <> e) by (intros Q; rewrite Q in Hl; exact (Na _ Hl)).
  pose proof (r_fwadj _ _ _ _ H) as Da.
  assert (K : exists g', add_end g x side e = Ret g' /\ ins_effect g g' x (if side =? 0 then [] else adj (eV a) x) (if side =? 0 then adj (eV a) x else []) e).
  { unfold add_end. destruct Hs as [-> | ->]; cbn [Z.eqb Z.lxor Pos.lxor Pos.eqb].
    - change (Z.lxor 1 0) with 1. run. gsimp. eexists. split; [reflexivity|]. constructor; gsimp; cbn [isnil negb andb last].
      + constructor; gsimp; reflexivity.
      + intros y. unfold upd. destruct (Z.eqb_spec y e); [congruence|reflexivity].
      + intros y. unfold upd. rewrite (isnil_false _ Ne), <- Ff. cbn [negb andb]. destruct (Z.eqb_spec y (vfirst g x)) as [->|].
        * now rewrite eqb_false_neq.
        * reflexivity.
      + intros y. unfold upd. reflexivity.
      + intros y. rewrite (isnil_false _ Ne). reflexivity.
    - change (Z.lxor 1 1) with 0. run. gsimp. eexists. split; [reflexivity|]. constructor; gsimp; cbn [isnil negb andb hd].
      + constructor; gsimp; reflexivity.
      + intros y. unfold upd. rewrite (isnil_false _ Ne), <- Fl. cbn [negb andb]. destruct (Z.eqb_spec y (vlast g x)) as [->|].
        * now rewrite eqb_false_neq.
        * reflexivity.
      + intros y. unfold upd. destruct (Z.eqb_spec y e); [congruence|reflexivity].
      + intros y. rewrite (isnil_false _ Ne). reflexivity.
      + intros y. unfold upd. reflexivity. }
  destruct K as (g' & E & I). exists g'. split; [exact E|].
  assert (Ex : adj (eV a) x = (if side =? 0 then [] else adj (eV a) x) ++ (if side =? 0 then adj (eV a) x else [])) by (destruct (side =? 0); [reflexivity|now rewrite app_nil_r]).
  assert (C' : chains g' (end_lists (adj (eV a)) x side e)).
  { eapply chains_ext; [eapply (chains_insert g g' _ x _ _ e C Vx Ex Na)|].
    - unfold gp_EdgeIndexBound in *. lia.
    - exact I.
    - intros y. unfold end_lists, upd. destruct (y =? x); [|reflexivity]. now destruct (side =? 0). }
  pose proof (ins_effect_kept _ _ _ _ _ _ _ Ex I) as Kp. pose proof (ie_frame _ _ _ _ _ _ I) as [F1 F2 F3 F4 F5 F6 F7 F8 F9 F10 F11 F12 F13 F14 F15].
  pose proof (r_keeps _ _ _ _ H) as KP. destruct H. unfold set_V, v_adj. constructor; cbn [eV nb fl e0 e1 adj fw prl pe fpc vis]; rewrite ?F3, ?F6, ?F7, ?F14, ?F15, ?F1, ?F10; auto.
  - eapply keeps_trans; [exact KP|]. constructor; try congruence. intros y _. rewrite F4, F5. auto.
  - intros u. eapply ring_ext; [|apply r_ring0]. intros f Hf. apply Kp; [intros ->; exact (Nf _ Hf)|]. intros w. now apply (Da u).
  - unfold gp_EdgeIndexBound. rewrite F3. auto.
  - intros u y f Hf Hy. unfold end_lists, upd in Hy. destruct (y =? x); [|exact (Da _ _ _ Hf Hy)].
    assert (In f (adj (eV a) x) \/ f = e).
    { destruct (side =? 0); [destruct Hy; auto|]. apply in_app_iff in Hy. destruct Hy as [|[|[]]]; auto. }
    destruct H as [H| ->]; [exact (Da _ _ _ Hf H)|exact (Nf _ Hf)].
  - unfold brl, prlheads in *. unfold gp_PrimaryVertexIndexBound in *. rewrite F15, F14, F1. exact r_prl0.
Qed.

(** ** Frames of invert and merge *)
Lemma rp_frame g0 g h a stk V : rp g0 g a stk -> frame_core g h -> (forall y, 1 <= y <= gN g0 -> vindex h y = vindex g y /\ vflags h y = vflags g y) ->
  chains h (adj V) -> (forall x, enbr h x = nb V x) -> (forall x, eflags h x = fl V x) -> (forall x, ext0 (gX h) x = e0 V x) -> (forall x, ext1 (gX h) x = e1 V x) ->
  (forall x, (forall w, ~ In x (adj (eV a) w)) -> enext h x = enext g x /\ eprev h x = eprev g x) ->
  (forall x e, In e (adj V x) -> exists y, In e (adj (eV a) y)) ->
  rp g0 h (set_V a V) stk.
Proof.
  intros H [F1 F2 F3 F4 F5 F6 F7 F8 F9 F10 F11 F12 F13 F14 F15] Ix C En Ef E0 E1 Kp Sub. pose proof (r_keeps _ _ _ _ H) as KP. pose proof (r_fwadj _ _ _ _ H) as Da.
  destruct H. unfold set_V. constructor; cbn [eV fw prl pe fpc vis]; rewrite ?F3, ?F6, ?F10, ?F1; auto.
  - eapply keeps_trans; [exact KP|]. constructor; try congruence. intros y Hy. rewrite (k_N _ _ KP) in Hy. auto.
  - intros u. eapply ring_ext; [|apply r_ring0]. intros f Hf. apply Kp. intros w. now apply (Da u).
  - unfold gp_EdgeIndexBound. rewrite F3. auto.
  - intros u x f Hf Hx. destruct (Sub _ _ Hx) as (y & Hy). exact (Da _ _ _ Hf Hy).
  - unfold brl, prlheads in *. unfold gp_PrimaryVertexIndexBound in *. rewrite F11, F12, F10, F1. exact r_prl0.
Qed.
Lemma invert_rp g0 g a stk W : rp g0 g a stk -> 1 <= W <= 2 * gN g0 ->
  exists g', _InvertVertex g W = Ret g' /\
    rp g0 g' (set_V a (mkGV (nb (eV a)) (fl (eV a)) (upd (e0 (eV a)) W (e1 (eV a) W)) (upd (e1 (eV a)) W (e0 (eV a) W))
                            (upd (adj (eV a)) W (rev (adj (eV a) W))) (o (eV a)) (X (eV a)) (B (eV a)))) stk.
Proof.
  intros H HW. destruct (wp_inv _ _ (invert_state _ _ W (r_chains _ _ _ _ H) (proj2 (isv_iff _ _ _ _ W H) HW))) as (h & E & I & I1 & I2 & I3 & I4).
  exists h. split; [exact E|]. destruct I. apply (rp_frame g0 g h a stk); cbn [nb fl e0 e1 adj]; auto.
  - intros. now rewrite iv_vindex, iv_vflags.
  - intros x. rewrite iv_enbr. apply (r_nb _ _ _ _ H).
  - intros x. rewrite iv_eflags. apply (r_fl _ _ _ _ H).
  - intros x. rewrite iv_ext0. unfold upd. destruct (x =? W); [apply (r_e1 _ _ _ _ H)|apply (r_e0 _ _ _ _ H)].
  - intros x. rewrite iv_ext1. unfold upd. destruct (x =? W); [apply (r_e0 _ _ _ _ H)|apply (r_e1 _ _ _ _ H)].
  - intros x Hx. rewrite I1, I2. destruct (inb_spec x (adj (eV a) W)) as [Q|]; [exfalso; exact (Hx W Q)|auto].
  - intros x e He. unfold upd in He. destruct (x =? W); [exists W; now apply in_rev|eauto].
Qed.
Lemma merge_rp g0 g a stk W link R : rp g0 g a stk -> 1 <= W <= 2 * gN g0 -> gN g0 < R <= 2 * gN g0 -> W <> R -> link = 0 \/ link = 1 -> adj (eV a) R <> [] ->
  (forall e, In e (adj (eV a) R) -> nb (eV a) (twin e) = R) ->
  exists g', _MergeVertex g W link R = Ret g' /\
    rp g0 g' (set_V a (mkGV (fun e => if inb (twin e) (adj (eV a) R) then W else nb (eV a) e) (fl (eV a)) (e0 (eV a)) (e1 (eV a))
                            (merged_lists (adj (eV a)) W link R) (o (eV a)) (X (eV a)) (B (eV a)))) stk.
Proof.
  intros H HW HR Ne Hl NR Tw. pose proof (r_chains _ _ _ _ H) as C.
  destruct (wp_inv _ _ (merge_state _ _ W link R C (r_even _ _ _ _ H) (proj2 (isv_iff _ _ _ _ W H) HW)
     (proj2 (isv_iff _ _ _ _ R H) ltac:(lia)) Ne Hl NR)) as (h & E & M & l1 & l2 & El & L).
  exists h. split; [exact E|]. destruct M. apply (rp_frame g0 g h a stk); cbn [nb fl e0 e1 adj]; auto.
  - intros y Hy. rewrite mg_vindex, mg_vflags by lia. auto.
  - intros x. destruct (inb_spec (twin x) (adj (eV a) R)) as [Q|Q].
    + rewrite <- (mg_to _ Q). now rewrite twin_invol.
    + rewrite (mg_others _ Q). apply (r_nb _ _ _ _ H).
  - intros x. rewrite mg_eflags. apply (r_fl _ _ _ _ H).
  - intros x. rewrite mg_X. apply (r_e0 _ _ _ _ H).
  - intros x. rewrite mg_X. apply (r_e1 _ _ _ _ H).
  - intros x Hx. rewrite (ml_next _ _ _ _ _ _ L), (ml_prev _ _ _ _ _ _ L).
    assert (A : (forall y, In y l1 -> exists w, In y (adj (eV a) w)) /\ (forall y, In y l2 -> exists w, In y (adj (eV a) w))) by (destruct El as [[-> ->]|[-> ->]]; eauto).
    destruct A as [A1 A2]. split.
    + destruct (Z.eqb_spec x (last l1 NIL)) as [Ex|]; [|reflexivity]. destruct l1 as [|y l1]; [reflexivity|]. exfalso.
      destruct (A1 x) as (w & Hw); [rewrite Ex; apply last_in; discriminate|exact (Hx w Hw)].
    + destruct (Z.eqb_spec x (hd NIL l2)) as [Ex|]; [|reflexivity]. destruct l2 as [|y l2]; [now rewrite andb_false_r|]. exfalso.
      destruct (A2 x) as (w & Hw); [rewrite Ex; now left|exact (Hx w Hw)].
  - intros x e He. unfold merged_lists, upd in He. destruct (x =? W).
    + destruct (link =? 0); apply in_app_iff in He; destruct He; eauto.
    + destruct (x =? R); [destruct He|eauto].
Qed.

(** ** The sign of the first child arc *)
Lemma rp_next g0 g a stk x l1 e l2 : rp g0 g a stk -> adj (eV a) x = l1 ++ e :: l2 -> gp_GetNextArc g e = Ret (hd NIL l2).
Proof.
  intros H E. pose proof (r_chains _ _ _ _ H) as C. assert (He : In e (adj (eV a) x)) by (rewrite E; apply in_app_iff; right; now left).
  pose proof (ch_range _ _ C _ _ He) as R. rewrite get_next by (apply inE_true; lia). f_equal.
  pose proof (ch_isvertex _ _ _ _ C He) as Vx. pose proof (ch_linked _ _ C x Vx) as L. rewrite E in L. apply linked_mid in L. tauto.
Qed.
Lemma rp_type g0 g a stk x e : rp g0 g a stk -> In e (adj (eV a) x) -> gp_GetEdgeType g e = Ret (Z.land (fl (eV a) e) EDGE_TYPE_MASK).
Proof.
  intros H He. pose proof (ch_range _ _ (r_chains _ _ _ _ H) _ _ He) as R. unfold gp_GetEdgeType. rewrite rd_eflags_ok by (apply inE_true; lia). cbn [bind].
  now rewrite (r_fl _ _ _ _ H).
Qed.
Lemma flip_sign_ok g0 g a stk x e l2 : rp g0 g a stk -> forall l1 l0 n, adj (eV a) x = l0 ++ l1 ++ e :: l2 ->
  (forall y, In y l1 -> ~ childarc (eV a) y) -> childarc (eV a) e -> (length l1 < n)%nat ->
  exists g', flip_sign_loop n g (hd NIL (l1 ++ e :: l2)) = Ret g' /\
    rp g0 g' (set_V a (v_fl (eV a) (upd (fl (eV a)) e (Z.lxor (fl (eV a) e) EDGEFLAG_INVERTED_MASK)))) stk.
Proof.
  intros H. induction l1 as [|y l1 IH]; intros l0 n E Nc Ce L; (destruct n as [|n]; [cbn [length] in L; lia|]); cbn [flip_sign_loop app hd].
  - assert (He : In e (adj (eV a) x)) by (rewrite E; apply in_app_iff; right; now left).
    rewrite eqb_false_neq by (eapply rp_ne; eauto). rewrite (rp_type _ _ _ _ _ _ H He). cbn [bind]. rewrite Ce, Z.eqb_refl.
    unfold gp_XorEdgeFlagInverted. pose proof (ch_range _ _ (r_chains _ _ _ _ H) _ _ He) as R.
    rewrite rd_eflags_ok by (apply inE_true; lia). cbn [bind]. rewrite wr_eflags_ok by (apply inE_true; lia).
    eexists. split; [reflexivity|]. rewrite (r_fl _ _ _ _ H). rpz H. intros z. unfold set_V, v_fl. cbn [eV fl]. unfold upd. destruct (z =? e); auto.
  - assert (He : In y (adj (eV a) x)) by (rewrite E; apply in_app_iff; right; now left).
    rewrite eqb_false_neq by (eapply rp_ne; eauto). rewrite (rp_type _ _ _ _ _ _ H He). cbn [bind].
    rewrite eqb_false_neq by (apply Nc; now left). rewrite (rp_next _ _ _ _ x l0 y (l1 ++ e :: l2) H E). cbn [bind].
    apply (IH (l0 ++ [y])); [now rewrite <- app_assoc| |auto|cbn [length] in L; lia]. intros z Hz. apply Nc. now right.
Qed.
