(** * IsoX2: walks around the external face of a component that is a cycle with chords. *)
From Coq Require Import ZifyBool Permutation.
From Verif Require Import Base BaseP GraphRec GraphM GraphSpec GSimp LinkP GraphP GraphP2 GraphP3 GraphP6 GraphP7 ListM ListSpec DFSM DFSSpec DFSP TestM TestP EmbM EmbSpec EmbP EmbP2 FaceP GeoP EmbInv EmbStep EmbTree EmbWalk EmbOrient FanP IsoM IsoP1 IsoO2 IsoX.

Lemma last_map (f : Z -> Z) l d e : l <> [] -> last (map f l) d = f (last l e).
Proof. intros H. destruct (list_snoc l) as [->|(k & y & ->)]; [congruence|]. rewrite map_app. cbn [map]. now rewrite !last_snoc. Qed.
Lemma hd_map (f : Z -> Z) l d e : l <> [] -> hd d (map f l) = f (hd e l).
Proof. destruct l; [congruence|reflexivity]. Qed.
Lemma last_In (l : list Z) d : l <> [] -> In (last l d) l.
Proof. intros H. destruct (list_snoc l) as [->|(k & y & ->)]; [congruence|]. rewrite last_snoc, in_app_iff. right. now left. Qed.

(** The arcs between consecutive vertices of the cycle are the first and the last ones. *)
Definition rims (s : gv) (R : Z) (L : list Z) : Prop := forall l1 u v l2, R :: L ++ [R] = l1 ++ u :: v :: l2 ->
  In u (R :: L) /\ In v (R :: L) /\ adj s u <> [] /\ adj s v <> [] /\ twin (hd NIL (adj s u)) = last (adj s v) NIL /\ nb s (hd NIL (adj s u)) = v /\ nb s (last (adj s v) NIL) = u.

Section Fan.
Variable g0 : graph.
Local Notation N := (gN g0).
Local Notation rpv := (rpv g0).
Local Notation marked := (marked g0).
Variables (b : est) (R : Z) (L : list Z).
Local Notation s := (eV b).
Local Notation n := (fun x => map (nb s) (adj s x)).
Hypothesis Tw : forall x e, In e (adj s x) -> nb s (twin e) = x /\ In (twin e) (adj s (nb s e)).
Hypothesis Nd : NoDup (R :: L).
Hypothesis Rng : forall x, In x (R :: L) -> 1 <= x <= 2 * N.
Hypothesis FN : cfan n R L.
Hypothesis NL : L <> [].

Lemma f_mid L1 x L2 : L = L1 ++ x :: L2 -> hd NIL (n x) = hd R L2 /\ last (n x) NIL = last L1 R.
Proof.
  intros E. destruct (of_at _ _ _ (cf_open _ _ _ FN) L1 x L2 E) as (A1 & A2 & A3). split; [exact A2|]. destruct (list_snoc L1) as [->|(l & y & ->)].
  - cbn [last]. rewrite <- (cf_last _ _ _ FN). rewrite E. reflexivity.
  - rewrite last_snoc, A3 by (destruct l; discriminate). now rewrite last_snoc.
Qed.
Lemma f_R : hd NIL (n R) = hd NIL L /\ last (n R) NIL = last L NIL.
Proof. split; [apply FN|apply FN]. Qed.
Lemma f_nd x : In x (R :: L) -> NoDup (n x).
Proof.
  intros [<-|Hx].
  - apply NoDup_cons_iff in Nd. apply (sub_nodup _ _ (of_T _ _ _ (cf_open _ _ _ FN)) (proj2 Nd)).
  - destruct (in_split _ _ Hx) as (L1 & L2 & E). destruct (of_at _ _ _ (cf_open _ _ _ FN) L1 x L2 E) as (A1 & _). apply (sub_nodup _ _ A1).
    apply (Permutation_NoDup (l := R :: L1 ++ L2)); [exact (Permutation_app_comm (R :: L1) L2)|]. rewrite E in Nd. apply NoDup_cons_iff in Nd. destruct Nd as [N1 N2]. apply NoDup_remove in N2. constructor; [|apply N2].
    intros Q. apply N1. rewrite in_app_iff in *. cbn. tauto.
Qed.
Lemma NILc : ~ In NIL (R :: L).
Proof. intros H. apply Rng in H. unfold NIL in H. lia. Qed.

Lemma rim_eq x y : In x (R :: L) -> In y (R :: L) -> hd NIL (n x) = y -> last (n y) NIL = x -> adj s x <> [] /\ adj s y <> [] /\ twin (hd NIL (adj s x)) = last (adj s y) NIL /\ nb s (hd NIL (adj s x)) = y /\ nb s (last (adj s y) NIL) = x.
Proof.
  intros Hx Hy E1 E2. cbv beta in E1, E2. assert (Nx : adj s x <> []). { intros Q. rewrite Q in E1. cbn in E1. subst y. now apply NILc. }
  assert (Ny : adj s y <> []). { intros Q. rewrite Q in E2. cbn in E2. subst x. now apply NILc. }
  rewrite (hd_map _ _ _ NIL) in E1 by auto. rewrite (last_map _ _ _ NIL) in E2 by auto. split; [auto|]. split; [auto|]. split; [|auto].
  destruct (Tw x (hd NIL (adj s x))) as [T1 T2]; [now apply hd_in|]. rewrite E1 in T2. pose proof (f_nd y Hy) as Q. apply (NoDup_map_inj _ _ _ _ Q); auto; [now apply last_In|congruence].
Qed.
Lemma L_cons : exists x L', L = x :: L'.
Proof. destruct L; [congruence|eauto]. Qed.
(** consecutive pairs along the cycle *)
Lemma pair_ok l1 u v l2 : R :: L ++ [R] = l1 ++ u :: v :: l2 -> In u (R :: L) /\ In v (R :: L) /\ hd NIL (n u) = v /\ last (n v) NIL = u.
Proof.
  intros E. assert (Iu : In u (R :: L)). { destruct (list_snoc l2) as [->|(k & y & ->)].
    - change (l1 ++ [u; v]) with (l1 ++ [u] ++ [v]) in E. rewrite app_assoc in E. change (R :: L ++ [R]) with ((R :: L) ++ [R]) in E. apply app_inj_tail in E. destruct E as [-> _]. apply in_app_iff. right. now left.
    - replace (l1 ++ u :: v :: k ++ [y]) with ((l1 ++ u :: v :: k) ++ [y]) in E by (rewrite <- app_assoc; reflexivity). change (R :: L ++ [R]) with ((R :: L) ++ [R]) in E. apply app_inj_tail in E. destruct E as [-> _]. apply in_app_iff. right. now left. }
  destruct l1 as [|r l1].
  - injection E as <- E. destruct L_cons as (x & L' & EL). rewrite EL in E. injection E as <- E. split; [now left|]. split; [rewrite EL; right; now left|]. split; [rewrite (proj1 f_R), EL; reflexivity|]. apply (f_mid [] x L'). auto.
  - injection E as <- E. destruct (list_snoc l2) as [->|(k & y & ->)].
    + change (l1 ++ [u; v]) with (l1 ++ [u] ++ [v]) in E. rewrite app_assoc in E. apply app_inj_tail in E. destruct E as [E <-]. split; [auto|]. split; [now left|]. split.
      * apply (f_mid l1 u []). auto.
      * rewrite (proj2 f_R), E. now rewrite last_snoc.
    + replace (l1 ++ u :: v :: k ++ [y]) with ((l1 ++ u :: v :: k) ++ [y]) in E by (rewrite <- app_assoc; reflexivity). apply app_inj_tail in E. destruct E as [E <-]. split; [auto|]. split; [right; rewrite E, in_app_iff; cbn; auto|]. split.
      * apply (f_mid l1 u (v :: k)). auto.
      * assert (E' : L = (l1 ++ [u]) ++ v :: k) by (rewrite E, <- app_assoc; reflexivity). rewrite (proj2 (f_mid _ _ _ E')). now rewrite last_snoc.
Qed.
Lemma adj_ne x : In x (R :: L) -> adj s x <> [].
Proof.
  intros [<-|Hx] Q.
  - pose proof (proj1 f_R) as E. cbv beta in E. rewrite Q in E. cbn in E. apply NILc. rewrite E. right. now apply hd_in.
  - destruct (in_split _ _ Hx) as (L1 & L2 & E). pose proof (proj1 (f_mid _ _ _ E)) as E1. cbv beta in E1. rewrite Q in E1. cbn in E1. apply NILc. rewrite E1. destruct L2; [now left|]. right. rewrite E, in_app_iff. right. right. now left.
Qed.
Lemma fan_rims : rims s R L.
Proof. intros l1 u v l2 E. destruct (pair_ok _ _ _ _ E) as (A1 & A2 & A3 & A4). split; [auto|]. split; [auto|]. now apply rim_eq. Qed.
End Fan.

Section Face.
Variable g0 : graph.
Local Notation N := (gN g0).
Local Notation rpv := (rpv g0).
Local Notation marked := (marked g0).
Variables (b : est) (R : Z) (L : list Z).
Local Notation s := (eV b).
Hypothesis Tw : forall x e, In e (adj s x) -> nb s (twin e) = x /\ In (twin e) (adj s (nb s e)).
Hypothesis Nd : NoDup (R :: L).
Hypothesis Rng : forall x, In x (R :: L) -> 1 <= x <= 2 * N.
Hypothesis PR : rims s R L.
Hypothesis NL : L <> [].

(** One step along the face. *)
Definition nxt (link u v : Z) : Prop := forall g F stk, rpv g (setfl b F) stk -> _GetNeighborOnExtFace g u link = Ret (v, link).
Lemma nbr_ok g F stk x e : rpv g (setfl b F) stk -> In e (adj s x) -> gp_GetNeighbor g e = Ret (nb s e).
Proof.
  intros H He. rewrite get_nbr by (apply inE_true; pose proof (ch_range _ _ (r_chains _ _ _ _ H) x e He); lia). now rewrite (r_nb _ _ _ _ H).
Qed.
Lemma nxt_fwd x y : In x (R :: L) -> In y (R :: L) -> adj s x <> [] -> adj s y <> [] -> twin (hd NIL (adj s x)) = last (adj s y) NIL -> nb s (hd NIL (adj s x)) = y -> nxt 1 x y.
Proof.
  intros Hx Hy Nx Ny E3 E4 g F stk H. unfold _GetNeighborOnExtFace.
  change (gp_GetArc g x (Z.lxor 1 1)) with (gp_GetFirstArc g x). rewrite (rp_first _ _ _ _ x H) by (apply Rng; auto). cbn [setfl set_V v_fl eV adj bind].
  rewrite (nbr_ok g F stk x _ H) by (now apply hd_in). cbn [bind]. rewrite E4.
  rewrite (rp_first _ _ _ _ y H) by (apply Rng; auto). cbn [bind]. rewrite (rp_last _ _ _ _ y H) by (apply Rng; auto). cbn [setfl set_V v_fl eV adj bind].
  rewrite twin_eq, E3. destruct (Z.eqb_spec (hd NIL (adj s y)) (last (adj s y) NIL)) as [Q|Q]; cbn [negb]; [reflexivity|]. rewrite eqb_false_neq by auto. reflexivity.
Qed.
Lemma nxt_bwd x y : In x (R :: L) -> In y (R :: L) -> adj s x <> [] -> adj s y <> [] -> twin (hd NIL (adj s x)) = last (adj s y) NIL -> nb s (last (adj s y) NIL) = x -> nxt 0 y x.
Proof.
  intros Hx Hy Nx Ny E3 E5 g F stk H. unfold _GetNeighborOnExtFace.
  change (gp_GetArc g y (Z.lxor 1 0)) with (gp_GetLastArc g y). rewrite (rp_last _ _ _ _ y H) by (apply Rng; auto). cbn [setfl set_V v_fl eV adj bind].
  rewrite (nbr_ok g F stk y _ H) by (now apply last_In). cbn [bind]. rewrite E5.
  rewrite (rp_first _ _ _ _ x H) by (apply Rng; auto). cbn [bind]. rewrite (rp_last _ _ _ _ x H) by (apply Rng; auto). cbn [setfl set_V v_fl eV adj bind].
  rewrite twin_eq, <- E3, twin_invol, Z.eqb_refl. destruct (negb _); reflexivity.
Qed.
Fixpoint walk (link : Z) (l : list Z) : Prop := match l with u :: ((v :: _) as t) => nxt link u v /\ walk link t | _ => True end.
Lemma walk_r link l1 l2 : walk link (l1 ++ l2) -> walk link l2.
Proof. induction l1 as [|u l1 IH]; auto. cbn [app walk]. destruct (l1 ++ l2) eqn:E; [destruct l1; [|discriminate]; cbn in E; subst l2; auto|]. intros [_ H]. auto. Qed.
Lemma walk_l link l1 l2 : walk link (l1 ++ l2) -> walk link l1.
Proof. induction l1 as [|u l1 IH]; [intros; exact I|]. cbn [app walk]. destruct l1 as [|v l1]; [auto|]. cbn [app] in *. intros [H1 H2]. split; auto. Qed.
Lemma walk_pairs link l : (forall l1 u v l2, l = l1 ++ u :: v :: l2 -> nxt link u v) -> walk link l.
Proof.
  induction l as [|u l IH]; intros H; cbn [walk]; [auto|]. destruct l as [|v l]; [auto|]. split; [apply (H [] u v l eq_refl)|]. apply IH. intros l1 x y l2 E. apply (H (u :: l1) x y l2). now rewrite E.
Qed.
Lemma walk_fwd : walk 1 (R :: L ++ [R]).
Proof. apply walk_pairs. intros l1 u v l2 E. destruct (PR _ _ _ _ E) as (A1 & A2 & A3 & A4 & A5 & A6 & A7). now apply nxt_fwd. Qed.
Lemma walk_bwd : walk 0 (R :: rev L ++ [R]).
Proof.
  apply walk_pairs. intros l1 u v l2 E. assert (E' : R :: L ++ [R] = rev l2 ++ v :: u :: rev l1).
  { apply (f_equal (@rev Z)) in E. cbn [rev] in E. rewrite !rev_app_distr in E. cbn [rev app] in E. rewrite rev_involutive in E. rewrite <- !app_assoc in E. cbn [app] in E. exact E. }
  destruct (PR _ _ _ _ E') as (A1 & A2 & A3 & A4 & A5 & A6 & A7). now apply nxt_bwd.
Qed.

(** ** Active vertices and W *)
Lemma find_active_ok g F stk : rpv g (setfl b F) stk -> _FindActiveVertices g R = Ret (hd NIL L, last L NIL).
Proof.
  intros H. unfold _FindActiveVertices. pose proof walk_fwd as W1. pose proof walk_bwd as W2. assert (exists x L', L = x :: L') as (x & L' & EL) by (destruct L; [congruence|eauto]). rewrite EL in W1. cbn [app walk] in W1. rewrite (proj1 W1 g F stk H). cbn [bind].
  destruct (list_snoc L) as [Q|(k & y & Q)]; [congruence|]. rewrite Q, rev_app_distr in W2. cbn [rev app walk] in W2. rewrite (proj1 W2 g F stk H). cbn [bind]. rewrite EL at 1. now rewrite Q, last_snoc.
Qed.
Lemma find_pert_ok g F stk Y W pt : rpv g (setfl b F) stk -> (forall x, In x L -> PERTINENT g x = Ret (pt x)) -> pt W = true -> W <> Y -> In W L -> forall K z m, walk 1 (z :: K ++ [W]) -> z <> W -> ~ In Y (K ++ [W]) ->
  incl K L -> (forall x, In x K -> pt x = false) -> (length K + 2 <= m)%nat ->
  ('(W0, l) <- _GetNeighborOnExtFace g z 1 ;; find_pert_loop m g Y W0 l) = Ret W.
Proof.
  intros H HP PW NY HW. induction K as [|y K IH]; intros z m Wk Nz Ny IK PK Hm; cbn [app walk] in Wk; destruct Wk as [W1 W2]; rewrite (W1 g F stk H); cbn [bind]; (destruct m as [|m]; [lia|]); cbn [find_pert_loop].
  - rewrite eqb_false_neq by auto. rewrite HP by auto. cbn [bind]. now rewrite PW.
  - rewrite eqb_false_neq by (intros ->; apply Ny; now left). rewrite HP by (apply IK; now left). cbn [bind]. rewrite PK by (now left). apply (IH y m); auto.
    + intros Q. subst y. rewrite PK in PW by (now left). discriminate.
    + intros Q. apply Ny. now right.
    + intros x Hx. apply IK. now right.
    + intros x Hx. apply PK. now right.
    + cbn [length] in Hm. lia.
Qed.

(** ** Vertex types *)
Lemma reset_type g F stk z t : rpv g (setfl b F) stk -> 1 <= z <= 2 * N -> Z.land t VERTEX_VISITED_MASK = 0 -> Z.land t VERTEX_OBSTRUCTIONTYPE_MASK = t -> vis0 g0 g ->
  exists g', gp_ResetVertexObstructionType g z t = Ret g' /\ rpv g' (setfl b F) stk /\ vis0 g0 g' /\ forall x, vtype g' x = if x =? z then t else vtype g x.
Proof.
  intros H Hz T1 T2 V0. unfold gp_ResetVertexObstructionType. rewrite (rd_vflags_rpv g0 _ _ _ z H Hz). cbn [bind]. destruct (rpv_wr_vflags g0 _ _ _ z (Z.lor (Z.ldiff (vflags g z) VERTEX_OBSTRUCTIONTYPE_MASK) t) H Hz) as (g' & E & H' & V).
  exists g'. split; [exact E|]. split; [auto|]. split.
  - intros x Hx. rewrite V. unfold upd. destruct (Z.eqb_spec x z) as [->|]; [|now apply V0]. rewrite Z.land_lor_distr_l, T1, ldiff_other by reflexivity. now rewrite (V0 z Hz).
  - intros x. unfold vtype. rewrite V. unfold upd. destruct (Z.eqb_spec x z) as [->|]; [|reflexivity]. rewrite Z.land_lor_distr_l, T2, ldiff_self. reflexivity.
Qed.
Lemma set_types_ok link low X W stk F : Z.land low VERTEX_VISITED_MASK = 0 -> Z.land low VERTEX_OBSTRUCTIONTYPE_MASK = low -> forall l z m g zt, rpv g (setfl b F) stk -> vis0 g0 g -> walk link (z :: l ++ [W]) -> ~ In W (z :: l) -> (z = X \/ zt = low) ->
  (forall x, In x (z :: l) -> 1 <= x <= 2 * N) -> (length l + 2 <= m)%nat ->
  exists g', set_types_loop m g low X W z link zt = Ret g' /\ rpv g' (setfl b F) stk /\ vis0 g0 g' /\ forall x, vtype g' x = if in_dec Z.eq_dec x (z :: l) then low else vtype g x.
Proof.
  intros T1 T2. induction l as [|y l IH]; intros z m g zt H V0 Wk NW Hzt Hr Hm; (destruct m as [|m]; [lia|]); cbn [set_types_loop]; rewrite eqb_false_neq by (intros ->; apply NW; now left).
  all: replace (if z =? X then low else zt) with low by (destruct (Z.eqb_spec z X); destruct Hzt; congruence).
  all: destruct (reset_type g F stk z low H (Hr z (or_introl eq_refl)) T1 T2 V0) as (g1 & E1 & H1 & V1 & Ty1); rewrite E1; cbn [bind].
  - cbn [app walk] in Wk. destruct Wk as [W1 _]. rewrite (W1 g1 F stk H1). cbn [bind]. cbn [length] in Hm. destruct m as [|m]; [lia|]. cbn [set_types_loop]. rewrite Z.eqb_refl. exists g1. split; [reflexivity|]. split; [auto|]. split; [auto|].
    intros x. rewrite Ty1. destruct (in_dec Z.eq_dec x [z]) as [[->|[]]|Q]; [now rewrite Z.eqb_refl|]. rewrite eqb_false_neq; [reflexivity|]. intros ->. apply Q. now left.
  - cbn [app walk] in Wk. destruct Wk as [W1 W2]. rewrite (W1 g1 F stk H1). cbn [bind]. destruct (IH y m g1 low H1 V1) as (g' & E' & H' & V' & Ty'); auto.
    + intros Q. apply NW. now right.
    + intros x Hx. apply Hr. now right.
    + cbn [length] in Hm. lia.
    + exists g'. split; [exact E'|]. split; [auto|]. split; [auto|]. intros x. rewrite Ty', Ty1. destruct (in_dec Z.eq_dec x (y :: l)) as [i|i], (in_dec Z.eq_dec x (z :: y :: l)) as [j|j]; auto.
      * exfalso. apply j. now right.
      * destruct j as [->|j]; [now rewrite Z.eqb_refl|contradiction].
      * rewrite eqb_false_neq; [reflexivity|]. intros ->. apply j. now left.
Qed.

(** ** Marking the cycle *)
Lemma mark_face_ok F0 stk e0 : (forall x e, In e (adj s x) -> 2 <= e < gp_EdgeIndexBound g0 /\ 2 <= twin e < gp_EdgeIndexBound g0) -> forall l z m g F ME, rpv g (setfl b F) stk -> marked F0 F ME -> walk 1 (z :: l ++ [e0]) -> ~ In e0 l -> incl (l ++ [e0]) (R :: L) ->
  (forall x, In x (l ++ [e0]) -> adj s x <> []) -> (length l < m)%nat ->
  exists g' F', mark_face_loop m g e0 z 1 = Ret g' /\ rpv g' (setfl b F') stk /\ marked F0 F' (map (fun x => last (adj s x) NIL) (rev (l ++ [e0])) ++ ME).
Proof.
  intros HE.
  assert (ST : forall y g F ME, rpv g (setfl b F) stk -> marked F0 F ME -> In y (R :: L) -> adj s y <> [] -> exists g1 g2 g3 F', gp_GetArc g y 1 = Ret (last (adj s y) NIL) /\ gp_SetEdgeVisited g (last (adj s y) NIL) = Ret g1 /\ gp_SetEdgeVisited g1 (gp_GetTwinArc (last (adj s y) NIL)) = Ret g2 /\ gp_SetVertexVisited g2 y = Ret g3 /\ rpv g3 (setfl b F') stk /\ marked F0 F' (last (adj s y) NIL :: ME)).
  { intros y g F ME H M Hy Ny. change (gp_GetArc g y 1) with (gp_GetLastArc g y). rewrite (rp_last _ _ _ _ y H) by (apply Rng; auto). cbn [setfl set_V v_fl eV adj].
    destruct (HE y (last (adj s y) NIL) (last_In _ _ Ny)) as [R1 R2]. destruct (mark_edge g0 _ _ _ F0 F ME (last (adj s y) NIL) H M R1 R2) as (g2 & F' & E & H2 & M2 & _).
    destruct (gp_SetEdgeVisited g (last (adj s y) NIL)) as [g1| |] eqn:E1; cbn [bind] in E; try discriminate. destruct (set_vmark g0 _ _ _ y H2 (Rng y Hy)) as (g3 & E3 & H3). exists g1, g2, g3, F'. auto 10. }
  induction l as [|y l IH]; intros z m g F ME H M Wk Ne IL NA Hm; (destruct m as [|m]; [lia|]); cbn [mark_face_loop]; cbn [app walk] in Wk; destruct Wk as [W1 W2]; rewrite (W1 g F stk H); cbn [bind].
  - destruct (ST e0 g F ME H M) as (g1 & g2 & g3 & F' & E1 & E2 & E3 & E4 & H3 & M3); [apply IL; now left|apply NA; now left|]. rewrite E1. cbn [bind]. rewrite E2. cbn [bind]. rewrite E3. cbn [bind]. rewrite E4. cbn [bind]. rewrite Z.eqb_refl. exists g3, F'. auto.
  - destruct (ST y g F ME H M) as (g1 & g2 & g3 & F' & E1 & E2 & E3 & E4 & H3 & M3); [apply IL; now left|apply NA; now left|]. rewrite E1. cbn [bind]. rewrite E2. cbn [bind]. rewrite E3. cbn [bind]. rewrite E4. cbn [bind]. rewrite eqb_false_neq by (intros ->; apply Ne; now left).
    destruct (IH y m g3 F' _ H3 M3 W2) as (g' & F2 & E' & H' & M').
    + intros Q. apply Ne. now right.
    + intros x Hx. apply IL. now right.
    + intros x Hx. apply NA. now right.
    + cbn [length] in Hm. lia.
    + exists g', F2. split; [exact E'|]. split; [auto|]. cbn [app rev]. rewrite map_app, <- app_assoc. exact M'.
Qed.
Lemma face_marked g F F0 ME stk : rpv g (setfl b F) stk -> marked F0 F ME -> (Z.of_nat (length L) <= 2 * N) -> 
  exists g' F', _MarkPathAlongBicompExtFace g R R = Ret g' /\ rpv g' (setfl b F') stk /\ marked F0 F' (map (fun x => last (adj s x) NIL) (R :: rev L) ++ ME).
Proof.
  intros H M HL. unfold _MarkPathAlongBicompExtFace. destruct (set_vmark g0 _ _ _ R H) as (g1 & E1 & H1); [apply Rng; now left|]. rewrite E1. cbn [bind].
  assert (HE : forall x e, In e (adj s x) -> 2 <= e < gp_EdgeIndexBound g0 /\ 2 <= twin e < gp_EdgeIndexBound g0).
  { intros x e He. destruct (Tw x e He) as [_ T2]. assert (Q : forall y d, In d (adj s y) -> 2 <= d < gp_EdgeIndexBound g0). { intros y d Hd. rewrite <- (rpv_cap g0 _ _ _ H). apply (ch_range _ _ (r_chains _ _ _ _ H) y). exact Hd. } split; eapply Q; eauto. }
  pose proof (rpv_N g0 _ _ _ H1) as KN. destruct (mark_face_ok F0 stk R HE L R (S (S (Z.to_nat (2 * gN g1)))) g1 F ME H1 M walk_fwd) as (g' & F' & E' & H' & M').
  - apply NoDup_cons_iff in Nd. apply Nd.
  - intros x Hx. apply in_app_iff in Hx. destruct Hx as [Hx|[<-|[]]]; [now right|now left].
  - intros x Hx. destruct (in_split _ _ Hx) as (l1 & l2 & E). destruct (list_snoc (R :: l1)) as [Q|(k & u & Q)]; [discriminate|]. apply (PR k u x l2). rewrite E. change (R :: l1 ++ x :: l2) with ((R :: l1) ++ x :: l2). rewrite Q, <- app_assoc. reflexivity.
  - rewrite KN. lia.
  - exists g', F'. split; [exact E'|]. split; [auto|]. now rewrite rev_app_distr in M'.
Qed.
End Face.
