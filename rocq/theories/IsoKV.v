(** * IsoKV: the isolator of Kuratowski subgraphs at the points where the embedder calls it. *)
From Coq Require Import ZifyBool Permutation Sorted.
From Verif Require Import Base BaseP GraphRec GraphM GraphSpec GSimp LinkP GraphP GraphP2 GraphP3 ListM ListSpec DFSM DFSSpec DFSP TestM TestSpec TestP ObsSpec EmbM EmbSpec EmbP EmbP2 FaceP GeoP EmbInv EmbStep EmbTree EmbWalk EmbUp EmbOrient EmbJoin EmbDown PlanSpec EmbC1 EmbC2 EmbC3 EmbC4 EmbDown3 EmbFan EmbStor FanP PlV PlV3 NcP PlI PlI2 IsoM IsoKM IsoP1 IsoP4 IsoT IsoB IsoKI IsoKB IsoKW EmbU.

(** ** Lists *)
Lemma sub_ends x l L : sub (x :: l) L -> NoDup L -> l <> [] ->
  exists A0 M A3, L = A0 ++ x :: M ++ last l NIL :: A3 /\ (forall z, In z (x :: l) -> ~ In z (A0 ++ A3)) /\ (forall z, In z l -> z <> last l NIL -> In z M).
Proof.
  intros S Nd Nl. destruct (exists_last Nl) as (l' & y & ->). rewrite last_snoc. destruct (sub_split [] x (l' ++ [y]) L S) as (A0 & T & -> & _ & S1).
  destruct (sub_split l' y [] T S1) as (M & A3 & -> & S2 & _). exists A0, M, A3. split; [reflexivity|].
  assert (Hm : forall z, In z l' -> In z M) by (intros z Hz; exact (sub_in _ _ _ S2 Hz)). split.
  - intros z Hz Hi. pose proof (NoDup_app_r _ _ Nd) as Nd1. apply NoDup_cons_iff in Nd1. destruct Nd1 as [Nx Nd1].
    assert (Dj : forall q, In q A0 -> In q (x :: M ++ y :: A3) -> False).
    { intros q H1 H2. apply in_split in H1. destruct H1 as (B1 & B2 & ->). rewrite <- app_assoc in Nd. apply NoDup_app_r in Nd. cbn [app] in Nd. apply NoDup_cons_iff in Nd. apply (proj1 Nd). apply in_app_iff. now right. }
    assert (Hz' : In z (x :: M ++ [y])). { destruct Hz as [<-|Hz]; [now left|right]. apply in_app_iff in Hz. apply in_app_iff. destruct Hz as [Hz|Hz]; [left; auto|right; auto]. }
    apply in_app_iff in Hi. destruct Hi as [Hi|Hi].
    + apply (Dj z Hi). destruct Hz' as [<-|Hz']; [now left|right]. rewrite in_app_iff in *. cbn [In] in *. tauto.
    + destruct Hz' as [<-|Hz']; [apply Nx; rewrite in_app_iff; cbn [In]; tauto|]. apply in_app_iff in Hz'. destruct Hz' as [Hz'|[<-|[]]].
      * apply in_split in Hz'. destruct Hz' as (B1 & B2 & ->). rewrite <- app_assoc in Nd1. apply NoDup_app_r in Nd1. cbn [app] in Nd1. apply NoDup_cons_iff in Nd1. apply (proj1 Nd1). rewrite in_app_iff. cbn [In]. tauto.
      * apply NoDup_app_r in Nd1. apply NoDup_cons_iff in Nd1. tauto.
  - intros z Hz Ne. apply in_app_iff in Hz. destruct Hz as [Hz|[<-|[]]]; [auto|congruence].
Qed.
Lemma first_true (f : Z -> bool) l : (exists w, In w l /\ f w = true) -> exists l1 w l2, l = l1 ++ w :: l2 /\ f w = true /\ forall z, In z l1 -> f z = false.
Proof.
  induction l as [|x l IH]; intros (w & H1 & H2); [destruct H1|]. destruct (f x) eqn:E; [exists [], x, l; split; [auto|]; split; [auto|]; intros z []|].
  destruct IH as (l1 & w' & l2 & -> & H3 & H4); [exists w; destruct H1 as [<-|H1]; [congruence|auto]|]. exists (x :: l1), w', l2. split; [reflexivity|]. split; [auto|]. intros z [<-|Hz]; auto.
Qed.

Local Notation flsof a Fs := (map (fun F => rev (tl (map (PlV.src (eV a)) F))) Fs).
Section KV.
Variables (g0 : graph) (kids : Z -> list Z).
Hypothesis St : static g0 kids.
Local Notation N := (gN g0).
Local Notation p := (viParent (gVI g0)).
Local Notation prim := (prim (gN g0)).
Local Notation anc := (ancestor (viParent (gVI g0))).
Local Notation geo := (geo (gN g0) (viParent (gVI g0))).
Local Notation act := (act g0).
Local Notation rp := (rp g0).
Local Notation fsim := (fsim g0).
Local Notation dinv := (dinv g0 kids).
Local Notation cinv := (cinv g0 anye).
Local Notation sedge := (sedge g0).
Local Notation vat := (vat g0).
Local Notation tat := (tat g0).

Lemma kisolated_sedge a b h : sedge a b -> kisolated g0 b h -> kisolated g0 a h.
Proof.
  intros E (ME & A & L & K). exists ME, A. split; [|exact K]. destruct L. constructor; auto.
  - intros x e. rewrite lv_in. rewrite (se_arc _ _ _ E), (se_nb _ _ _ E). tauto.
  - intros x e He. rewrite (lv_nbr x e He). apply (se_nb _ _ _ E).
Qed.
(** Half of the arcs at a root are at most half of the arcs. *)
Lemma adj_cap2 g a stk C xs R : rp g a stk -> geo C xs (eV a) -> noloop g0 a -> adj (eV a) R <> [] -> 2 * Z.of_nat (length (adj (eV a) R)) <= gCap g0.
Proof.
  intros H G NL Na. pose proof (g_base _ _ _ _ _ G) as G0. set (l := adj (eV a) R) in *.
  assert (Nd : NoDup (l ++ map twin l)).
  { apply NoDup_app_intro; [apply (g_nodup _ _ _ G0 R)|apply FinFun.Injective_map_NoDup; [intros x y Q; rewrite <- (twin_invol x), Q; apply twin_invol|apply (g_nodup _ _ _ G0 R)]|].
    intros e H1 H2. apply in_map_iff in H2. destruct H2 as (e' & <- & H2). destruct (g_twins _ _ _ G0 _ _ H2) as [T1 T2]. pose proof (g_disj _ _ _ G0 _ _ _ H1 T2) as Q.
    apply (NL e'); [left; exists R; exact H2|]. rewrite <- Q, T1. reflexivity. }
  assert (I : incl (l ++ map twin l) (zrange 2 (Z.to_nat (gCap g0)))).
  { intros e Hi. pose proof (k_cap _ _ (r_keeps _ _ _ _ H)) as KC. assert (exists x, In e (adj (eV a) x)) as [x Hx].
    { apply in_app_iff in Hi. destruct Hi as [Hi|Hi]; [eauto|]. apply in_map_iff in Hi. destruct Hi as (e' & <- & Hi). destruct (g_twins _ _ _ G0 _ _ Hi) as [_ T]. eauto. }
    pose proof (ch_range _ _ (r_chains _ _ _ _ H) _ _ Hx) as Rr. unfold gp_EdgeIndexBound in Rr. apply in_zrange. lia. }
  pose proof (NoDup_incl_length Nd I) as Le. rewrite zrange_length, app_length, map_length in Le. destruct l; [congruence|]. cbn [length] in *. lia.
Qed.

Lemma adj_mem a R : geo NIL [] (eV a) -> GeoP.isroot N R -> adj (eV a) R <> [] -> good g0 a -> (length (adj (eV a) R) <= length (mem N (eV a) R))%nat.
Proof.
  intros G HR NR (Nl & _ & _ & Np). pose proof (g_base _ _ _ _ _ G) as Gb. rewrite <- (map_length (nb (eV a))). apply NoDup_incl_length.
  - pose proof (g_nodup _ _ _ Gb R) as Nd. assert (Hi : forall e, In e (adj (eV a) R) -> arc a e /\ nb (eV a) (twin e) = R) by (intros e He; split; [left; eauto|apply (g_twins _ _ _ Gb _ _ He)]).
    clear NR. revert Hi Nd. induction (adj (eV a) R) as [|e l IH]; intros Hi Nd; [constructor|]. apply NoDup_cons_iff in Nd. cbn [map]. constructor; [|apply IH; [intros; apply Hi; now right|apply Nd]].
    intros Q. apply in_map_iff in Q. destruct Q as (f & Q1 & Q2). apply (proj1 Nd). destruct (Hi e (or_introl eq_refl)) as [H1 H2], (Hi f (or_intror Q2)) as [H3 H4]. rewrite (Np e f H1 H3); [auto|now rewrite Q1|now rewrite H2, H4].
  - intros y Hy. apply in_map_iff in Hy. destruct Hy as (e & <- & He). pose proof (arc_comp N p _ _ _ _ _ _ G HR NR (or_introl eq_refl) He) as K. destruct K as [K|K]; [exfalso|exact K].
    apply (Nl e); [left; eauto|]. now rewrite <- K, (proj1 (g_twins _ _ _ Gb _ _ He)).
Qed.
Lemma kiso_ok v c a d g stk stk0 R0 : dinv v c a -> cinv v c a -> good g0 a -> opl g0 = false -> act (eV a) d -> prim v -> anc v (p d) ->
  (tat v a [] (hd NIL (X (eV a) (N + d))) /\ ~ vat v a [] (hd NIL (X (eV a) (N + d)))) -> (tat v a [] (last (X (eV a) (N + d)) NIL) /\ ~ vat v a [] (last (X (eV a) (N + d)) NIL)) ->
  (exists w, In w (X (eV a) (N + d)) /\ vat v a [] w) -> (p d = v -> PI g0 v d a) ->
  rp g a stk -> (stk = [] /\ stk0 = [] /\ R0 = N + d) \/ (exists y, stk = y :: N + d :: stk0) ->
  Z.of_nat (length stk0) + Z.of_nat (length (adj (eV a) (N + d))) + 2 * Z.of_nat (length (mem N (eV a) (N + d))) + 2 <= gstackCap g0 ->
  exists h, _IsolateKuratowskiSubgraph g v R0 = Ret (h, C_OK) /\ kisolated g0 a h.
Proof.
  intros D C (Gl & Gp & Gs & Gn) Eo Ad Hv Av [Tx Vx] [Ty Vy] (e & He & Ve) HPI H Hs Cap. pose proof (d_geo _ _ _ _ _ D) as G.
  destruct (orient g0 a stk g d (N + d) false H G Ad (or_introl eq_refl)) as (V & H1 & S & G1 & O1 & _ & _). set (b := set_V a V).
  assert (Sb : fsim (eV a) (eV b)) by exact S. assert (Ea : forall y, act V y <-> act (eV a) y) by (intros y; apply (fsim_act _ _ _ _ S)). assert (Ab : act V d) by (apply Ea; auto).
  assert (Se : sedge a b).
  { constructor; cbn [b set_V eV]; rewrite ?(fs_nb _ _ S), ?(fs_fl _ _ S); auto. intros q. unfold arc. cbn [b set_V eV fw]. rewrite (fs_adj _ _ S). tauto. }
  destruct (good_sedge g0 a b Se (conj Gl (conj Gp (conj Gs Gn)))) as (Gl' & Gp' & Gs' & Gn'). destruct (fsim_outer g0 kids St (eV a) V G (d_out _ _ _ _ _ D) S) as [_ Ox].
  assert (Cb : cinv v c b) by (apply (cinv_sim g0 anye v c a); auto using anye_sym).
  assert (En : nb (eV b) = nb (eV a)) by apply (fs_nb _ _ S).
  assert (HV : forall x, vat v b [] x <-> vat v a [] x) by (intros x; apply vat_same; auto). assert (HT : forall x, tat v b [] x <-> tat v a [] x) by (intros x; apply tat_same; auto).
  destruct (act_root g0 _ _ Ab) as [HR NRz]. pose proof (proj2 (proj2 Ab)) as NR. destruct (Ox (N + d) HR NR NRz) as [F OF]. destruct (full_of g0 _ _ G1 Ab) as [_ Fu].
  set (L := tl (map (PlV.src V) F)). assert (HL : Lw g0 V (N + d) L) by (exists F; auto). pose proof (X_sub g0 V (N + d) F (g_base _ _ _ _ _ G1) Fu HR OF) as XS. fold L in XS.
  destruct (K_facts g0 kids St b d L G1 Ab HL) as [NdL InL]. apply NoDup_cons_iff in NdL. destruct NdL as [_ NdL]. destruct (X_facts g0 _ _ Fu) as (Xne & Xnd & Xin).
  assert (Lv : forall z, In z L -> prim z /\ v < z /\ B V z = N + d).
  { intros z Hz. destruct (InL z Hz) as (P1 & P2 & P3 & _). destruct (pd_facts g0 kids St b d Ab) as [Q1 Q2]. pose proof (anc_le g0 kids St _ _ Q1 Av). pose proof (anc_le g0 kids St _ _ P1 P3). split; [auto|]. split; [lia|exact P2]. }
  assert (Pb : forall z, In z L -> pertb b z = true <-> vat v b [] z).
  { intros z Hz. destruct (Lv z Hz) as (P1 & P2 & _). rewrite pertb_spec, HV. change (pert b z) with (pert a z). apply (pert_vat g0 kids anye a v c D); auto. }
  assert (Pf : forall z, In z L -> futp g0 b v z <-> tat v b [] z).
  { intros z Hz. destruct (Lv z Hz) as (P1 & P2 & _). rewrite HT, <- (fpt_tat g0 kids St anye a v c D); auto. unfold futp, fpt. cbn [b set_V eV]. split.
    - intros [Q|(y & Q1 & Q2)]; [right; now left|right; right; exists y; split; [now apply Ea|auto]].
    - intros [Q|[Q|(y & Q1 & Q2)]]; [congruence|now left|right; exists y; split; [now apply Ea|auto]]. }
  (* a vertex that is not on the shortened external face leads nowhere *)
  assert (Off : forall z, In z L -> ~ In z (X V (N + d)) -> pertb b z = false /\ ~ futp g0 b v z).
  { intros z Hz Nz. destruct (Lv z Hz) as (P1 & P2 & P3).
    assert (K : forall u f, u <= v -> In f (fw b u) -> hs g0 V [] z (nb V f) -> False).
    { intros u f Lu Hf Hh. destruct (ci_keep _ _ _ _ _ Cb u f ltac:(lia) Hf) as [K1 K2]. cbn [b set_V eV] in K1, K2. apply Nz. rewrite <- P3. destruct Hh as [Q|(y & A1 & _ & A3 & A4 & A5)]; [now rewrite Q in K1|]. rewrite <- A3. apply K2; auto. lia. }
    split; [destruct (pertb b z) eqn:E0; [|reflexivity]; exfalso; apply (Pb z Hz) in E0; destruct E0 as (f & Hf & Hh); apply (K v f); auto; lia|].
    intros E0. apply (Pf z Hz) in E0. destruct E0 as [Q|(u & f & Hu & Hf & Hh)]; [congruence|]. apply (K u f); auto. lia. }
  assert (XX : exists x y, (x = hd NIL (X V (N + d)) /\ y = last (X V (N + d)) NIL) /\ tat v b [] x /\ ~ vat v b [] x /\ tat v b [] y /\ ~ vat v b [] y /\ In e (X V (N + d))).
  { eexists. eexists. split; [split; reflexivity|]. rewrite !HT, !HV. destruct (fs_X _ _ S (N + d)) as [EX|EX]; rewrite EX, ?hd_rev, ?last_rev; repeat split; auto. now apply in_rev in He. }
  destruct XX as (x & y & [Ex Ey] & Tx' & Vx' & Ty' & Vy' & He'). assert (Ve' : vat v b [] e) by now apply HV.
  destruct (X V (N + d)) as [|x0 l] eqn:EX; [congruence|]. cbn [hd] in Ex. subst x0. assert (Nl : l <> []) by (intros ->; destruct He' as [Q0|[]]; subst; contradiction).
  assert (Ey' : y = last l NIL) by (rewrite Ey; destruct l; [congruence|reflexivity]). clear Ey. destruct (sub_ends x l L XS NdL Nl) as (A0 & M & A3 & EL & I03 & IM). rewrite <- Ey' in *.
  assert (Sx : forall z, In z (x :: l) -> In z L) by (intros z Hz; exact (sub_in _ _ _ XS Hz)).
  assert (IMe : In e M). { destruct He' as [Q0|He']; [subst; contradiction|]. apply IM; [auto|]. intros ->. contradiction. }
  destruct (first_true (pertb b) M) as (A1 & w & A2 & EM & Pw & I1); [exists e; split; [auto|]; apply Pb; auto|]. subst M. rewrite <- app_assoc in EL. cbn [app] in EL.
  assert (Iy : In y (x :: l)) by (right; rewrite Ey'; now apply last_in).
  assert (exists Fs, p d = v -> Forall2 (iface N V (N + d)) (tl (rot V (N + d))) Fs /\ nc (concat (flsof b Fs)) /\ pwf g0 b v L (concat (flsof b Fs)) /\ forall fl, In fl (flsof b Fs) -> exff g0 b v L fl) as [Fs HFs].
  { destruct (Z.eq_dec (p d) v) as [Ed|Ed]; [|exists []; intros Q; contradiction].
    assert (PIb : PI g0 v d b) by (apply (PI_sim g0 v d a b); auto; apply Ad).
    destruct PIb as (L' & fls & B1 & B2 & B3 & B4 & B5). cbn [b set_V eV] in B1, B2. rewrite (Lw_uniq g0 _ _ _ _ B1 HL) in *. clear B1 L'.
    assert (exists Fs, Forall2 (iface N V (N + d)) (tl (rot V (N + d))) Fs /\ flsof b Fs = fls) as (Fs & J1 & J2).
    { clear - B2. unfold PlI.Fls in B2. induction B2 as [|r fl rs fls (F & I & ->) K (Fs & I1 & I2)]; [exists []; split; [constructor|reflexivity]|]. exists (F :: Fs). split; [constructor; auto|]. cbn [map]. f_equal. exact I2. }
    exists Fs. intros _. rewrite J2. split; [auto|]. assert (Nf : nc (concat fls)) by (rewrite <- (rev_involutive (concat fls)); apply nc_rev; exact (nc_sub _ _ (sub_drop L _) B3)). split; [exact Nf|].
    assert (Lin : forall La q Lb, L = La ++ q :: Lb -> In q L) by (intros La q Lb ->; apply in_app_iff; right; now left).
    split.
    - intros La q Lb E1 I (x1 & X1 & X2) (y1 & Y1 & Y2) Pq. apply (B4 La q Lb E1 I).
      + exists x1. split; [auto|]. apply Pf; [rewrite E1; apply in_app_iff; auto|auto].
      + exists y1. split; [auto|]. apply Pf; [rewrite E1; apply in_app_iff; right; now right|auto].
      + apply Pb; [eauto|auto].
    - intros fl Hfl l1 a1 mid b1 l2 La Lm Lb E1 Hm E2 (x1 & X1 & X2) (y1 & Y1 & Y2) (z1 & Z1 & Z2). assert (In1 : forall q, In q (La ++ [a1]) \/ In q Lm \/ In q (b1 :: Lb) -> In q L) by (intros q; rewrite E2; rewrite !in_app_iff; cbn [In]; rewrite in_app_iff; cbn [In]; tauto).
      destruct (B5 fl Hfl l1 a1 mid b1 l2 La Lm Lb E1 Hm E2) as (q & Q1 & Q2).
      + exists x1. split; [auto|]. apply Pf; auto.
      + exists y1. split; [auto|]. apply Pf; auto.
      + exists z1. split; [auto|]. apply Pb; auto.
      + exists q. split; [auto|]. apply Pf; auto. }
  assert (Em : mem N V (N + d) = mem N (eV a) (N + d)) by (unfold mem; now rewrite (fs_B _ _ S)).
  destruct (kiso g0 kids St b v d L) with (x := x) (w := w) (y := y) (A0 := A0) (A1 := A1) (A2 := A2) (A3 := A3) (Fs := Fs) (g := g) (stk := stk) (stk0 := stk0) (R0 := R0) as (h & E & I); auto; cbn [b set_V eV].
  - apply (fsim_via_fwok g0 a); auto. apply (d_fw _ _ _ _ _ D).
  - intros z Hz. destruct (d_pe _ _ _ _ _ D z Hz) as [Q1 Q2]. split; [exact Q1|]. cbn [b set_V pe eV]. rewrite (fs_nb _ _ S). exact Q2.
  - apply (fsim_prlok g0 v a); auto. apply (d_prl _ _ _ _ _ D).
  - apply (ci_ord _ _ _ _ _ Cb).
  - apply (ci_least _ _ _ _ _ Cb).
  - apply (ci_low _ _ _ _ _ Cb).
  - intros z Hz. apply Off; [rewrite EL; rewrite in_app_iff in Hz; rewrite in_app_iff; cbn [In]; rewrite in_app_iff; cbn [In]; rewrite in_app_iff; cbn [In]; tauto|]. intros Q. exact (I03 z Q Hz).
  - apply Pf; [apply Sx; now left|auto].
  - apply Pf; auto.
  - intros z Hz. destruct (d_fpc _ _ _ _ _ D z Hz) as (l1 & l2 & K1 & K2 & K3). exists l1, l2. split; [auto|]. split; [auto|]. intros q Hq. destruct (K3 q Hq) as [Q|Q]; [left; intros Q1; apply Q; now apply Ea|right; exact Q].
  - now rewrite Em, (fs_adj _ _ S).
  - exists h. split; [exact E|]. exact (kisolated_sedge a b h Se I).
Qed.

(** Both directions below W are blocked. *)
Lemma inner_ends v c a W d l fr P Q : dinv v c a -> cinv v c a -> opl g0 = false -> prim v -> p c = v -> act (eV a) c -> prim W -> EmbJoin.chain g0 a (N + c) W fr P Q -> prl a W = d :: l ->
  ~ pert a (hd NIL (X (eV a) (N + d))) -> ~ pert a (last (X (eV a) (N + d)) NIL) ->
  (tat v a [] (hd NIL (X (eV a) (N + d))) /\ ~ vat v a [] (hd NIL (X (eV a) (N + d)))) /\ (tat v a [] (last (X (eV a) (N + d)) NIL) /\ ~ vat v a [] (last (X (eV a) (N + d)) NIL)) /\
  exists w, In w (X (eV a) (N + d)) /\ vat v a [] w.
Proof.
  intros D C Eo Hv Ec Ac PW Ch Ep N1 N2. destruct (d_facts g0 kids St a v c Hv (proj1 Ac) Ec D W d l fr P Q PW Ch Ep) as (Ed & Ad & A & Ne & LW & AW & f & Hf & Af). destruct (X_nd g0 kids a v c D d Ad) as [Nd Xn].
  assert (Pd : v < d) by (pose proof (proj2 (Hp g0 kids St d (proj1 Ad) (proj1 (proj2 Ad)))); lia).
  destruct (lift_X g0 kids St anye a v c D C d v f Ad ltac:(lia) Pd Hf Af) as (e & He & Hh). assert (Ve : vat v a [] e) by (exists f; auto).
  assert (Px : forall x, In x (X (eV a) (N + d)) -> prim x /\ v < x). { intros x Hx. destruct (X_in g0 kids St a v c D d x Ad Hx) as (X1 & _ & X3). split; [auto|]. apply (c_lt g0 kids St v c Hv (proj1 Ac) Ec); auto. exact (anc_trans _ _ _ _ A X3). }
  destruct (Px _ (hd_in _ NIL Xn)) as [Ph Lh]. destruct (Px _ (last_in _ NIL Xn)) as [Pl Ll].
  rewrite (pert_vat g0 kids anye a v c D C _ Ph Lh) in N1. rewrite (pert_vat g0 kids anye a v c D C _ Pl Ll) in N2.
  assert (E1 : e <> hd NIL (X (eV a) (N + d))) by (intros ->; auto). assert (E2 : e <> last (X (eV a) (N + d)) NIL) by (intros ->; auto).
  assert (S3 : sub [hd NIL (X (eV a) (N + d)); e; last (X (eV a) (N + d)) NIL] (X (eV a) (N + d))).
  { assert (S2 := sub_hd [] e _ (sub1 _ _ He) E1). apply (sub_last [hd NIL (X (eV a) (N + d))] e); auto. }
  destruct (ci_ends _ _ _ _ _ C d Ad Ne) as [L2|[L2|[L2 L3]]].
  - apply sub_len in S3. cbn [length] in S3. lia.
  - exfalso. apply (L2 v f); auto. now rewrite Ed.
  - destruct (uact_split g0 anye a v c C _ _ L2) as [Q1|Q1]; [contradiction|]. destruct (uact_split g0 anye a v c C _ _ L3) as [Q2|Q2]; [contradiction|]. split; [auto|]. split; [auto|]. eauto.
Qed.
Lemma kinner_ok v c a b W d l fr P Q g x : dinv v c a -> dinv v c b -> eV b = eV a -> fw b = fw a -> prl b = prl a -> pe b = pe a -> cinv v c a -> good g0 a -> opl g0 = false -> prim v -> p c = v -> act (eV a) c -> prim W ->
  EmbJoin.chain g0 a (N + c) W fr P Q -> prl a W = d :: l -> ~ pert a (hd NIL (X (eV a) (N + d))) -> ~ pert a (last (X (eV a) (N + d)) NIL) ->
  rp g b (0 :: N + d :: x :: W :: enc (eV a) fr) -> exists h, _IsolateKuratowskiSubgraph g v (N + c) = Ret (h, C_OK) /\ kisolated g0 a h.
Proof.
  intros D D' E1 E2 E3 E4 C Gd Eo Hv Ec Ac PW Ch Ep N1 N2 H. pose proof (d_geo _ _ _ _ _ D) as G. destruct (d_prl _ _ _ _ _ D W d) as (Pd & Vd & Ad & f & Hf & Af); [rewrite Ep; now left|].
  destruct (inner_ends v c a W d l fr P Q D C Eo Hv Ec Ac PW Ch Ep N1 N2) as (T1 & T2 & T3).
  destruct (chain_in g0 kids St _ _ _ _ _ _ _ _ G eq_refl (proj1 Ac) W PW Ch) as (AW & _ & Fr).
  assert (Av : anc v W). { apply (anc_trans _ _ c); [|auto]. apply anc_step; rewrite Ec; [unfold GeoP.prim, NIL in *; lia|constructor]. }
  assert (Nv : W <> v) by (intros ->; rewrite (d_prlv _ _ _ _ _ D) in Ep; discriminate).
  assert (Se : sedge a b). { constructor; rewrite ?E1; auto. intros e. unfold arc. rewrite E1, E2. tauto. }
  assert (Fs : fsim (eV a) (eV b)) by (rewrite E1; apply fsim_refl).
  assert (Ea : forall y, act (eV b) y <-> act (eV a) y) by (intros y; rewrite E1; tauto). assert (En : nb (eV b) = nb (eV a)) by now rewrite E1.
  assert (HV : forall y, vat v b [] y <-> vat v a [] y) by (intros y; apply vat_same; auto). assert (HT : forall y, tat v b [] y <-> tat v a [] y) by (intros y; apply tat_same; auto).
  destruct (kiso_ok v c b d g (0 :: N + d :: x :: W :: enc (eV a) fr) (x :: W :: enc (eV a) fr) (N + c)) as (h & Eh & Ih); rewrite ?E1, ?HV, ?HT; auto.
  - apply (cinv_sim g0 anye v c a); auto using anye_sym.
  - exact (good_sedge g0 a b Se Gd).
  - now rewrite Pd.
  - destruct T3 as (w & W1 & W2). exists w. split; [auto|now apply HV].
  - intros Q0. congruence.
  - eauto.
  - assert (HC : GeoP.isroot N (N + c)) by (destruct Ac as [Q0 _]; unfold GeoP.prim, GeoP.isroot in *; lia). destruct (chain_lt g0 kids St _ _ _ _ _ _ _ G HC W Ch) as (L1 & L2 & L3). pose proof (chain_top g0 _ _ _ _ _ _ _ _ G HC Ch) as Tp.
    assert (BW : B (eV a) W <> NIL). { rewrite Tp. destruct fr as [|[z R'] fr']; cbn [map snd hd]; [unfold GeoP.isroot, NIL in *; pose proof PW; unfold GeoP.prim in *; lia|]. specialize (L1 R' (or_introl eq_refl)). unfold GeoP.isroot, GeoP.prim, NIL in *. lia. }
    pose proof (B_le g0 kids St _ _ _ _ G PW BW) as BL. destruct (Hp g0 kids St d (proj1 Ad) (proj1 (proj2 Ad))) as [_ Lt]. rewrite Pd in Lt.
    assert (Lc : c <= W) by (apply (anc_le g0 kids St); auto).
    pose proof (mem_cap g0 kids St g b _ NIL [] d (c :: map (fun R => R - N) (map snd fr)) H ltac:(rewrite E1; exact G) ltac:(rewrite E1; exact Ad)) as MC. rewrite E1 in MC. cbn [length] in MC. rewrite !map_length in MC.
    assert (In d (mem N (eV a) (N + d))) as Id.
    { destruct Ad as (A1 & A2 & A3). unfold mem. apply filter_In. split; [unfold GeoP.prim in A1; apply in_zrange; lia|]. rewrite (g_B1 _ _ _ (g_base _ _ _ _ _ G) d A1 A2 A3). lia. }
    assert (1 <= length (mem N (eV a) (N + d)))%nat by (destruct (mem N (eV a) (N + d)); [destruct Id|cbn [length]; lia]).
    assert (2 * (Z.of_nat (S (length fr)) + Z.of_nat (length (mem N (eV a) (N + d)))) <= gCap g0).
    { apply MC.
      - constructor.
        + intros Hi. apply in_map_iff in Hi. destruct Hi as (R' & E & Hi). pose proof (L1 R' Hi). lia.
        + clear - L2. induction L2 as [|R' l' Hn L2 IH]; [constructor|]. cbn [map]. constructor; [|auto]. intros Hi. apply in_map_iff in Hi. destruct Hi as (R2 & E & Hi). assert (R2 = R') by lia. congruence.
      - intros y [<-|Hy]; [split; [auto|lia]|]. apply in_map_iff in Hy. destruct Hy as (R' & E & Hi). pose proof (L1 R' Hi). apply in_map_iff in Hi. destruct Hi as ([z R2] & Q1 & Hi). cbn [snd] in Q1. subst R2. destruct (Fr z R' Hi) as (d' & D1 & D2 & _).
        replace y with d' by lia. split; [auto|]. lia. }
    pose proof (adj_mem a (N + d) G (proj1 (full_of g0 _ _ G Ad)) (proj2 (proj2 Ad)) Gd) as AC.
    pose proof (st_cap _ _ St). cbn [length]. rewrite enc_length. lia.
  - exists h. split; [exact Eh|]. exact (kisolated_sedge a b h Se Ih).
Qed.

(** ** What the answer NONEMBEDDABLE leaves *)
Definition isol (a : est) (h : graph) : Prop := (gembed g0 = EMBEDFLAGS_OUTERPLANAR -> isolated g0 a h) /\ (gembed g0 = EMBEDFLAGS_PLANAR -> kisolated g0 a h).
Lemma isol_sedge a b h : sedge a b -> isol b h -> isol a h.
Proof. intros E [H1 H2]. split; intros G; [exact (isolated_sedge g0 a b h E (H1 G))|exact (kisolated_sedge a b h E (H2 G))]. Qed.
Lemma opl_of : gembed g0 = EMBEDFLAGS_OUTERPLANAR -> opl g0 = true.
Proof. unfold opl. intros ->. reflexivity. Qed.
Lemma opl_off : gembed g0 = EMBEDFLAGS_PLANAR -> opl g0 = false.
Proof. unfold opl. intros ->. reflexivity. Qed.
Lemma block_ok v a b g stk Root R : rp g b stk -> (R <> Root -> (length stk + 2 <= Z.to_nat (gstackCap g0))%nat) ->
  (opl g0 = true -> forall g1, rp g1 b (if R =? Root then stk else 0 :: R :: stk) -> exists h, _IsolateOuterplanarObstruction g1 v Root = Ret (h, C_OK) /\ isolated g0 a h) ->
  (opl g0 = false -> forall g1, rp g1 b (if R =? Root then stk else 0 :: R :: stk) -> exists h, _IsolateKuratowskiSubgraph g1 v Root = Ret (h, C_OK) /\ kisolated g0 a h) ->
  exists g', _HandleBlockedBicomp g v Root R = Ret (g', C_NONEMBEDDABLE) /\ isol a g'.
Proof.
  intros H Cap HI HK. unfold _HandleBlockedBicomp.
  assert (exists g1, (if negb (R =? Root) then stk_push2 g R 0 else Ret g) = Ret g1 /\ rp g1 b (if R =? Root then stk else 0 :: R :: stk)) as (g1 & E1 & H1).
  { destruct (Z.eqb_spec R Root) as [E|E]; cbn [negb]; [exists g; auto|]. apply (push2_ok _ _ _ _ R 0 H). specialize (Cap E). lia. }
  rewrite E1. cbn [bind]. rewrite (k_embed _ _ (r_keeps _ _ _ _ H1)).
  destruct (Z.eqb_spec (gembed g0) EMBEDFLAGS_PLANAR) as [E|E].
  { destruct (HK (opl_off E) g1 H1) as (h & W & I). rewrite W. cbn [bind]. exists h. split; [reflexivity|]. split; [intros Q; rewrite Q in E; discriminate|auto]. }
  destruct (Z.eqb_spec (gembed g0) EMBEDFLAGS_OUTERPLANAR) as [E'|E']; [|exists g1; split; [reflexivity|]; split; intros Q; contradiction].
  destruct (HI (opl_of E') g1 H1) as (h & W & I). rewrite W. cbn [bind]. exists h. split; [reflexivity|]. split; [auto|contradiction].
Qed.
End KV.

(** ** A component of one edge *)
Section NoPar.
Variables (g0 : graph) (kids : Z -> list Z).
Hypothesis St : static g0 kids.
Local Notation N := (gN g0).
Local Notation p := (viParent (gVI g0)).
Local Notation prim := (prim (gN g0)).
Local Notation geo := (geo (gN g0) (viParent (gVI g0))).
Local Notation act := (act g0).
Lemma lone_PI v c a : geo NIL [] (eV a) -> outer g0 (eV a) -> good g0 a -> act (eV a) c -> (forall y, prim y -> p y = c -> act (eV a) y) -> PI g0 v c a.
Proof.
  intros G [_ Ox] (Nl & _ & _ & Np) Ac Hy. destruct (full_of g0 _ _ G Ac) as [HR F]. pose proof Ac as (A1 & A2 & A3). pose proof (g_base _ _ _ _ _ G) as Gb.
  destruct (Ox (N + c) HR A3 ltac:(unfold NIL, GeoP.isroot in *; lia)) as (Fo & O).
  assert (All : forall e, In e (adj (eV a) (N + c)) -> nb (eV a) e = c).
  { intros e He. pose proof (arc_comp N p _ _ _ _ _ _ G HR A3 (or_introl eq_refl) He) as K. apply in_vsof in K. destruct K as [K|[K1 K2]].
    - exfalso. apply (Nl e); [left; eauto|]. now rewrite K, (proj1 (g_twins _ _ _ Gb _ _ He)).
    - exact (lone g0 kids St _ _ _ _ G Ac Hy _ K1 K2). }
  destruct (adj (eV a) (N + c)) as [|e l] eqn:E; [congruence|].
  assert (l = []) as ->.
  { destruct l as [|f l]; [auto|exfalso]. assert (e = f).
    - apply Np.
      + left. exists (N + c). rewrite E. now left.
      + left. exists (N + c). rewrite E. right; now left.
      + rewrite (All e), (All f); auto; [right; now left|now left].
      + rewrite (proj1 (g_twins _ _ _ Gb (N + c) e ltac:(rewrite E; now left))), (proj1 (g_twins _ _ _ Gb (N + c) f ltac:(rewrite E; right; now left))). reflexivity.
    - subst f. pose proof (g_nodup _ _ _ Gb (N + c)) as Nd. rewrite E in Nd. apply NoDup_cons_iff in Nd. apply (proj1 Nd). now left. }
  apply (PI_one g0 v c a (tl (map (PlV.src (eV a)) Fo)) e); [exists Fo; auto| |auto].
  pose proof (oface_nd _ _ _ _ _ Gb O) as Nd. destruct (map (PlV.src (eV a)) Fo); [constructor|]. now apply NoDup_cons_iff in Nd.
Qed.
End NoPar.
