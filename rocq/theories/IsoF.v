(** * IsoF: the marked edges form a subdivision of K2,3 or K4. *)
From Coq Require Import ZifyBool Permutation.
From Verif Require Import Base BaseP GraphRec GraphM GraphSpec GSimp LinkP GraphP GraphP2 GraphP3 ListM ListSpec DFSM DFSSpec DFSP TestM TestSpec TestP ObsSpec EmbM EmbSpec EmbP EmbP2 FaceP GeoP EmbInv EmbStep EmbTree EmbWalk EmbOrient EmbJoin EmbDown EmbDown3 EmbFan EmbStor FanP IsoM IsoP1 IsoP2 IsoP3 IsoP4 IsoO IsoO2 IsoX IsoX2 IsoX3 IsoX4 IsoK IsoI.

Definition cnt1 (a q : Z) : nat := if Z.eq_dec a q then 1 else 0.
Lemma cnt_cons a l q : count_occ Z.eq_dec (a :: l) q = (cnt1 a q + count_occ Z.eq_dec l q)%nat.
Proof. unfold cnt1. cbn [count_occ]. destruct (Z.eq_dec a q); lia. Qed.
Ltac perm := apply (Permutation_count_occ Z.eq_dec); let q := fresh "q" in intros q; repeat (rewrite ?cnt_cons, ?count_occ_app, ?count_occ_rev); change (count_occ Z.eq_dec [] q) with 0%nat; lia.

Section Fin.
Variables (g0 : graph) (kids : Z -> list Z).
Hypothesis St : static g0 kids.
Local Notation N := (gN g0).
Local Notation p := (viParent (gVI g0)).
Local Notation prim := (prim (gN g0)).
Local Notation isroot := (isroot (gN g0)).
Local Notation anc := (ancestor (viParent (gVI g0))).
Local Notation geo := (geo (gN g0) (viParent (gVI g0))).
Local Notation act := (act g0).
Local Notation rp := (rp g0).
Local Notation rpv := (rpv g0).
Local Notation marked := (marked g0).
Local Notation pof := (pof g0).
Variables (a : est) (d : Z).
Local Notation s := (eV a).
Local Notation R := (gN g0 + d).
Local Notation L := (X (eV a) (gN g0 + d)).
Hypothesis G : geo NIL [] s.
Hypothesis Ad : act s d.
Hypothesis Ou : forall y, prim y -> p y <> NIL -> In y (X s (B s y)).
Hypothesis Fs : cfan (nbrs s) R L.
Hypothesis NLp : noloop g0 a.
Hypothesis PT : ptypes a.

Definition src (e : Z) : Z := pof (nb s (twin e)).
Definition dst (e : Z) : Z := pof (nb s e).
Definition ok (ME : list Z) (e : Z) : Prop := arc a e /\ (In e ME \/ In (twin e) ME).
Lemma src_twin e : src (twin e) = dst e. Proof. unfold src. now rewrite twin_invol. Qed.
Lemma dst_twin e : dst (twin e) = src e. Proof. reflexivity. Qed.
Lemma ok_twin ME e : ok ME e -> ok ME (twin e).
Proof. intros [A Q]. split; [apply (arc_twin g0 _ _ (g_base _ _ _ _ _ G) A)|]. rewrite twin_invol. tauto. Qed.
Lemma ok_incl ME ME' e : incl ME ME' -> ok ME e -> ok ME' e.
Proof. intros I [A Q]. split; [auto|]. destruct Q; auto. Qed.
Lemma pof_prim x : prim x -> pof x = x.
Proof. unfold GeoP.prim, EmbJoin.pof. intros H. now replace (x <=? N) with true by lia. Qed.
Lemma pof_R : pof R = p d.
Proof. destruct Ad as [A _]. unfold GeoP.prim, EmbJoin.pof in *. replace (N + d <=? N) with false by lia. f_equal. lia. Qed.
Local Notation pth ME := (pth src dst (ok ME)).
Local Notation run ME := (run src dst (ok ME)).

(** ** Tree paths *)
Lemma parent_step t e : prim t -> In e (adj s t) -> ty a e = EDGE_TYPE_PARENT -> src e = t /\ dst e = p t /\ p t <> NIL /\ arc a e.
Proof.
  intros Pt He Ht. pose proof (g_base _ _ _ _ _ G) as G0. destruct (g_twins _ _ _ G0 _ _ He) as [T1 T2].
  assert (Ae : arc a e) by (left; eauto). assert (Tt : ty a (twin e) = EDGE_TYPE_CHILD) by (apply (PT (twin e)); [now apply (arc_twin g0)|now rewrite twin_invol]).
  destruct (g_childu _ _ _ G0 _ _ T2 Tt) as (P1 & P2 & P3). rewrite T1 in *. unfold src, dst. rewrite T1, (pof_prim t Pt). split; [auto|]. split; [|auto].
  destruct P3 as [->| ->]; [|now rewrite pof_prim by (apply (Hp g0 kids St); auto)]. unfold EmbJoin.pof, GeoP.prim in *. replace (N + t <=? N) with false by lia. f_equal. lia.
Qed.
Lemma ups_pth ME u l : prim u -> forall t, prim t -> ups g0 a u t l -> incl l ME ->
  pth ME t l u /\ NoDup (map src l) /\ (forall z, In z (map src l) -> prim z /\ anc u z /\ z <> u /\ anc z t) /\ anc u t.
Proof.
  intros Pu. induction l as [|e l IH]; intros t Pt; cbn [ups IsoK.pth map].
  - intros -> _. split; [auto|]. split; [constructor|]. split; [intros z []|constructor].
  - intros (Ne & He & Ht & Q) I. destruct (parent_step t e Pt He Ht) as (S1 & S2 & S3 & S4). destruct (Hp g0 kids St t Pt S3) as [P1 P2].
    destruct (IH (p t) P1 Q) as (I1 & I2 & I3 & I4); [intros x Hx; apply I; now right|]. assert (Aut : anc u t) by (now apply anc_step). split; [|split; [|split]].
    + split; [split; [auto|]; left; apply I; now left|]. rewrite S2. auto.
    + rewrite S1. constructor; [|auto]. intros Hi. destruct (I3 t Hi) as (_ & _ & _ & K). pose proof (anc_le _ _ St _ _ P1 K). lia.
    + intros z [<-|Hz]; [rewrite S1; split; [auto|]; split; [auto|]; split; [auto|constructor]|]. destruct (I3 z Hz) as (K1 & K2 & K3 & K4). split; [auto|]. split; [auto|]. split; [auto|]. now apply anc_step.
    + exact Aut.
Qed.
Lemma L_prim x : In x L -> prim x.
Proof. intros H. destruct (L_facts g0 kids St a d G Ad) as (_ & _ & P). now apply P. Qed.
Lemma L_anc x : In x L -> anc d x.
Proof. intros H. destruct (L_facts g0 kids St a d G Ad) as (_ & _ & P). now apply P. Qed.
Lemma L_pof l : incl l L -> map pof l = l.
Proof. intros I. rewrite <- (map_id l) at 2. apply map_ext_in. intros x Hx. apply pof_prim, L_prim. auto. Qed.
Lemma out_L w d' z : In w L -> act s d' -> p d' = w -> prim z -> anc d' z -> ~ In z L.
Proof.
  intros Hw A' E Pz Az Hz. destruct (L_facts g0 kids St a d G Ad) as (_ & _ & P). destruct (P z Hz) as (_ & Bz & _). pose proof (B_near g0 kids St _ _ _ d' z G A' Pz Az) as Q.
  pose proof (anc_le _ _ St _ _ (L_prim w Hw) (L_anc w Hw)). destruct A' as (A1 & A2 & _). destruct (Hp g0 kids St d' A1 A2). lia.
Qed.
(** The vertices below w on the way to a descendant that is not in the component. *)
Lemma below_L w d' t z : In w L -> act s d' -> p d' = w -> prim t -> anc d' t -> prim z -> anc w z -> z <> w -> anc z t -> ~ In z L.
Proof.
  intros Hw A' E Pt At Pz Az Nz Zt. apply (out_L w d' z); auto. destruct (Z_le_dec d' z) as [Q|Q]; [apply (anc_total _ _ St _ _ t); auto|].
  assert (anc z d') by (apply (anc_total _ _ St _ _ t); auto; lia). destruct (anc_up g0 z d' H) as [_ K]; [lia|]. rewrite E in K. exfalso. apply Nz. pose proof (anc_le _ _ St _ _ (L_prim w Hw) K). pose proof (anc_le _ _ St _ _ Pz Az). lia.
Qed.

(** ** The rim *)
Section Rim.
Variables (D : Z -> bool) (b : est).
Hypothesis Tu : turned a D b.
Hypothesis DT : forall x, In x (vsof N s R) -> D x = true.
Definition first (x : Z) : Z := hd NIL (adj (eV b) x).
Definition rim : list Z := map (fun x => last (adj (eV b) x) NIL) (R :: rev L).
Lemma rim_step l1 u v l2 : R :: L ++ [R] = l1 ++ u :: v :: l2 -> arc a (first u) /\ src (first u) = pof u /\ dst (first u) = pof v /\ twin (first u) = last (adj (eV b) v) NIL /\ In v (R :: L).
Proof.
  intros E. destruct (L_facts g0 kids St a d G Ad) as (Ne & Nd & P). pose proof (tu_tw g0 a G D b Tu) as Tw. pose proof (tu_fan g0 kids St a d G Ad Ou Fs D b Tu DT) as Fn. pose proof (L_rng g0 kids St a d G Ad) as Rg.
  destruct (pair_ok g0 b R L Nd Rg Fn Ne l1 u v l2 E) as (I1 & I2 & E1 & E2). destruct (rim_eq g0 b R L Tw Nd Rg Fn u v I1 I2 E1 E2) as (N1 & N2 & E3 & E4 & E5).
  assert (Hf : In (first u) (adj (eV b) u)) by (now apply hd_in). destruct (Tw u _ Hf) as [T1 _]. apply (tu_same a D b Tu) in Hf. unfold first, src, dst in *. rewrite (tu_nb _ _ _ Tu) in *. rewrite T1, E4.
  split; [left; eauto|]. auto.
Qed.
Lemma rim_run ME : incl rim ME -> forall mid l1 u v l2, R :: L ++ [R] = l1 ++ u :: mid ++ v :: l2 -> run ME (pof u) (map pof mid) (pof v) (map first (u :: mid)).
Proof.
  intros I. assert (K : forall l1 u v l2, R :: L ++ [R] = l1 ++ u :: v :: l2 -> run ME (pof u) [] (pof v) [first u]).
  { intros l1 u v l2 E. destruct (rim_step _ _ _ _ E) as (E1 & E2 & E3 & E4 & E5). rewrite <- E2, <- E3. apply run_one. split; [auto|]. right. apply I. rewrite E4. unfold rim. apply in_map_iff. exists v. split; [auto|]. cbn [In] in *. rewrite <- in_rev. auto. }
  induction mid as [|y mid IH]; intros l1 u v l2 E.
  - exact (K l1 u v l2 E).
  - cbn [app] in E. apply (run_app src dst (ok ME) (pof u) [] (pof y) (map pof mid) (pof v) [first u] (map first (y :: mid))).
    + apply (K l1 u y (mid ++ v :: l2)). exact E.
    + apply (IH (l1 ++ [u]) y v l2). rewrite E, <- app_assoc. reflexivity.
Qed.
Lemma rim_cover e : In e rim -> In (twin e) (map first (R :: L)).
Proof.
  unfold rim. intros H. apply in_map_iff in H. destruct H as (v & <- & Hv). assert (Hv' : In v (L ++ [R])) by (rewrite in_app_iff; cbn [In] in *; rewrite <- in_rev in Hv; tauto).
  destruct (in_split _ _ Hv') as (l1 & l2 & E). destruct (list_snoc (R :: l1)) as [Q|(k & u & Q)]; [discriminate|].
  assert (E' : R :: L ++ [R] = k ++ u :: v :: l2) by (rewrite E; change (R :: l1 ++ v :: l2) with ((R :: l1) ++ v :: l2); rewrite Q, <- app_assoc; reflexivity).
  destruct (rim_step _ _ _ _ E') as (_ & _ & _ & E4 & _). rewrite <- E4, twin_invol. apply in_map.
  destruct (L_facts g0 kids St a d G Ad) as (Ne & Nd & _). apply (pair_ok g0 b R L Nd (L_rng g0 kids St a d G Ad) (tu_fan g0 kids St a d G Ad Ou Fs D b Tu DT) Ne k u v l2 E').
Qed.

(** ** The subdivisions *)
Variables (v : Z) (f : Z).
Hypothesis Hv : prim v.
Hypothesis Av : anc v d.
Hypothesis Nvd : v <> d.
Variables (x y w : Z) (M1 M2 : list Z).
Hypothesis EL : L = x :: M1 ++ w :: M2 ++ [y].
Hypothesis Af : arc a f.
Hypothesis Sf : src f = v.
Variables (h : graph) (A : Z -> list Z).

Lemma p_d : prim (p d) /\ p d < d /\ anc v (p d) /\ v <= p d.
Proof.
  destruct Ad as (A1 & A2 & _). destruct (Hp g0 kids St d A1 A2) as [P1 P2]. destruct (anc_up g0 v d Av Nvd) as [_ K]. split; [auto|]. split; [auto|]. split; [auto|]. apply (anc_le _ _ St); auto.
Qed.
Lemma L_NoDup : NoDup (x :: M1 ++ w :: M2 ++ [y]).
Proof. destruct (L_facts g0 kids St a d G Ad) as (_ & Nd & _). rewrite <- EL. now apply NoDup_cons_iff in Nd. Qed.
Lemma L_ge z : In z L -> d <= z.
Proof. intros H. apply (anc_le _ _ St); [now apply L_prim|now apply L_anc]. Qed.
Lemma in_L z : z = x \/ z = y \/ z = w \/ In z M1 \/ In z M2 -> In z L.
Proof. rewrite EL. cbn [In]. rewrite in_app_iff. cbn [In]. rewrite in_app_iff. cbn [In]. intuition. Qed.
Lemma leaves_in ME : leaves g0 a ME h A -> (forall e, ok ME e -> In e (A (src e))) /\ (forall e, ok ME e -> enbr h e = dst e) /\ (forall e, is_arc A e -> ok ME e).
Proof.
  intros Lv. assert (K : forall e, ok ME e -> In e (A (src e))) by (intros e [K1 K2]; apply (lv_in _ _ _ _ _ Lv); auto). split; [exact K|]. split.
  - intros e He. apply (lv_nbr _ _ _ _ _ Lv (src e)). auto.
  - intros e (u & Hu). apply (lv_in _ _ _ _ _ Lv) in Hu. destruct Hu as (K1 & _ & K2). split; auto.
Qed.
Local Tactic Notation "rimr" constr(mid) constr(l1) constr(u) constr(z) constr(l2) := refine (rim_run _ _ mid l1 u z l2 _); [|rewrite EL; repeat (cbn [app]; rewrite <- ?app_assoc); reflexivity].
Lemma twin_in e l : In e l -> In (twin e) (map twin (rev l)).
Proof. intros H. apply in_map. now apply -> in_rev. Qed.
(** an edge is on one of the paths *)
Lemma edge_cov (P Q : list Z) e : (forall z, In z P -> In z Q \/ In (twin z) Q) -> In e P \/ In (twin e) P -> In e Q \/ In (twin e) Q.
Proof. intros H [K|K]; destruct (H _ K) as [J|J]; auto. rewrite twin_invol in J. auto. Qed.

(** Minor A: the component hangs off a descendant of v. *)
Lemma sub_A l1 l2 dw d' : p d <> v -> ups g0 a v (p d) l1 -> ups g0 a w dw l2 -> prim dw -> dst f = dw ->
  (dw = w \/ act s d' /\ p d' = w /\ anc d' dw) -> leaves g0 a (f :: l2 ++ l1 ++ rim) h A -> bipartite_subdivision h A 2 3.
Proof.
  intros Nv U1 U2 Pdw Df Hd Lv. set (ME := f :: l2 ++ l1 ++ rim) in *. destruct (leaves_in ME Lv) as (K1 & K2 & K3). destruct p_d as (P1 & P2 & P3 & P4).
  assert (I1 : incl l1 ME) by (intros z Hz; right; rewrite !in_app_iff; auto). assert (I2 : incl l2 ME) by (intros z Hz; right; rewrite !in_app_iff; auto). assert (I3 : incl rim ME) by (intros z Hz; right; rewrite !in_app_iff; auto).
  assert (Wp : prim w) by (apply L_prim, in_L; auto). assert (Xp : prim x) by (apply L_prim, in_L; auto). assert (Yp : prim y) by (apply L_prim, in_L; auto).
  destruct (ups_pth ME v l1 Hv (p d) P1 U1 I1) as (T1 & T2 & T3 & _). destruct (ups_pth ME w l2 Wp dw Pdw U2 I2) as (S1 & S2 & S3 & S4).
  assert (exists P, map src l1 = p d :: P /\ run ME (p d) P v l1) as (P & EP & RP).
  { pose proof (pth_src _ _ _ _ _ _ T1) as Q. destruct l1 as [|e1 l1']; [cbn [IsoK.pth] in T1; congruence|]. cbn [map app] in Q. injection Q as Q0 Q. exists (map src l1'). split; [cbn [map]; now rewrite Q0|]. split; [exact T1|]. cbn [map]. now rewrite <- Q. }
  assert (Okf : ok ME f) by (split; [auto|left; now left]).
  assert (RF : run ME dw [] v [twin f]) by (rewrite <- Df, <- Sf; rewrite <- (dst_twin f), <- (src_twin f); apply run_one; now apply ok_twin).
  pose proof (run_pth src dst (ok ME) w _ dw [] v _ _ (pth_rev src dst (ok ME) src_twin dst_twin (ok_twin ME) _ _ _ S1) (dst_rev src dst dst_twin l2) RF) as RW.
  assert (R1 : run ME (p d) [] x [first R]) by (rewrite <- pof_R, <- (pof_prim x Xp); rimr (@nil Z) (@nil Z) (R) x (M1 ++ w :: M2 ++ [y; R]); auto).
  assert (R2 : run ME y [] (p d) [first y]) by (rewrite <- pof_R, <- (pof_prim y Yp) at 1; rimr (@nil Z) (R :: x :: M1 ++ w :: M2) y R (@nil Z); auto).
  assert (IM1 : incl M1 L) by (intros z Hz; apply in_L; auto). assert (IM2 : incl M2 L) by (intros z Hz; apply in_L; auto).
  assert (R3 : run ME x M1 w (map first (x :: M1))) by (rewrite <- (pof_prim x Xp), <- (pof_prim w Wp), <- (L_pof M1 IM1) at 1; rimr M1 [R] x w (M2 ++ [y; R]); auto).
  assert (R4 : run ME w M2 y (map first (w :: M2))) by (rewrite <- (pof_prim w Wp), <- (pof_prim y Yp), <- (L_pof M2 IM2) at 1; rimr M2 (R :: x :: M1) w y [R]; auto).
  apply (run_rev src dst (ok ME) src_twin dst_twin (ok_twin ME)) in R2, R3.
  refine (k23_of src dst (ok ME) h A K1 K2 (p d) w x y v _ _ _ _ _ _ _ _ _ _ R1 R2 RP R3 R4 RW _ _).
  - set (J := rev (map src l2)). assert (HJ : forall z, In z J -> prim z /\ anc w z /\ z <> w /\ anc z dw) by (intros z Hz; apply S3; now apply in_rev).
    apply (Permutation_NoDup (l := (v :: (p d :: P)) ++ (x :: M1 ++ w :: M2 ++ [y]) ++ J)); [perm|].
    assert (HP : forall z, In z (v :: p d :: P) -> z < d). { rewrite <- EP. intros z [<-|Hz]; [lia|]. destruct (T3 z Hz) as (_ & _ & _ & Q). pose proof (anc_le _ _ St _ _ P1 Q). lia. }
    apply NoDup_app_intro; [|apply NoDup_app_intro; [apply L_NoDup|unfold J; now apply NoDup_rev|]|].
    + rewrite <- EP. constructor; [|auto]. intros Q. apply T3 in Q. tauto.
    + intros z Z1 Z2. rewrite <- EL in Z1. destruct (HJ z Z2) as (J1 & J2 & J3 & J4). destruct Hd as [->|(H1 & H2 & H3)].
      * apply J3. pose proof (anc_le _ _ St _ _ Wp J4). pose proof (anc_le _ _ St _ _ J1 J2). lia.
      * apply (below_L w d' dw z); auto. apply in_L; auto.
    + intros z Z1 Z2. apply HP in Z1. apply in_app_iff in Z2. destruct Z2 as [Z2|Z2]; [rewrite <- EL in Z2; apply L_ge in Z2; lia|]. destruct (HJ z Z2) as (J1 & J2 & _ & _). pose proof (anc_le _ _ St _ _ J1 J2). assert (d <= w) by (apply L_ge, in_L; auto). lia.
  - intros e He. destruct (K3 e He) as [_ Q]. revert Q. apply edge_cov. intros z [<-|Hz]; [right; rewrite !in_app_iff; cbn [In]; tauto|]. rewrite !in_app_iff in Hz. destruct Hz as [Hz|[Hz|Hz]].
    + right. rewrite !in_app_iff. do 5 right. left. now apply twin_in.
    + left. rewrite !in_app_iff. tauto.
    + apply rim_cover in Hz. rewrite EL in Hz. repeat (cbn [map In] in Hz; rewrite ?map_app, ?in_app_iff in Hz).
      destruct Hz as [Hz|[Hz|[Hz|[Hz|[Hz|[Hz|[]]]]]]].
      * right. rewrite !in_app_iff. left. now left.
      * left. rewrite !in_app_iff. do 3 right. left. rewrite <- (twin_invol z). apply twin_in. rewrite <- Hz. now left.
      * left. rewrite !in_app_iff. do 3 right. left. rewrite <- (twin_invol z). apply twin_in. now right.
      * right. rewrite !in_app_iff. do 4 right. left. rewrite <- Hz. now left.
      * right. rewrite !in_app_iff. do 4 right. left. now right.
      * left. rewrite !in_app_iff. right. left. rewrite <- (twin_invol z). rewrite <- Hz. now left.
Qed.
(** Minor B: the way to w leads through a component below w. *)
Lemma sub_B l2 dw d' : p d = v -> ups g0 a w dw l2 -> prim dw -> dst f = dw -> act s d' -> p d' = w -> anc d' dw ->
  leaves g0 a (f :: l2 ++ rim) h A -> bipartite_subdivision h A 2 3.
Proof.
  intros Ev U2 Pdw Df Ad' Ed' An Lv. set (ME := f :: l2 ++ rim) in *. destruct (leaves_in ME Lv) as (K1 & K2 & K3). destruct p_d as (P1 & P2 & P3 & P4).
  assert (I2 : incl l2 ME) by (intros z Hz; right; rewrite !in_app_iff; auto). assert (I3 : incl rim ME) by (intros z Hz; right; rewrite !in_app_iff; auto).
  assert (Wp : prim w) by (apply L_prim, in_L; auto). assert (Xp : prim x) by (apply L_prim, in_L; auto). assert (Yp : prim y) by (apply L_prim, in_L; auto).
  destruct (ups_pth ME w l2 Wp dw Pdw U2 I2) as (S1 & S2 & S3 & S4).
  assert (Nw : dw <> w). { intros ->. pose proof (anc_le _ _ St _ _ Wp An). destruct Ad' as (A1 & A2 & _). destruct (Hp g0 kids St d' A1 A2). lia. }
  assert (exists Q, map src l2 = dw :: Q /\ run ME dw Q w l2) as (Q & EQ & RQ).
  { pose proof (pth_src _ _ _ _ _ _ S1) as Q. destruct l2 as [|e1 l2']; [cbn [IsoK.pth] in S1; congruence|]. cbn [map app] in Q. injection Q as Q0 Q. exists (map src l2'). split; [cbn [map]; now rewrite Q0|]. split; [exact S1|]. cbn [map]. now rewrite <- Q. }
  assert (Okf : ok ME f) by (split; [auto|left; now left]).
  assert (RF : run ME (p d) [] dw [f]) by (rewrite Ev, <- Df, <- Sf; now apply run_one).
  assert (R1 : run ME (p d) [] x [first R]) by (rewrite <- pof_R, <- (pof_prim x Xp); rimr (@nil Z) (@nil Z) (R) x (M1 ++ w :: M2 ++ [y; R]); auto).
  assert (R2 : run ME y [] (p d) [first y]) by (rewrite <- pof_R, <- (pof_prim y Yp) at 1; rimr (@nil Z) (R :: x :: M1 ++ w :: M2) y R (@nil Z); auto).
  assert (IM1 : incl M1 L) by (intros z Hz; apply in_L; auto). assert (IM2 : incl M2 L) by (intros z Hz; apply in_L; auto).
  assert (R3 : run ME x M1 w (map first (x :: M1))) by (rewrite <- (pof_prim x Xp), <- (pof_prim w Wp), <- (L_pof M1 IM1) at 1; rimr M1 [R] x w (M2 ++ [y; R]); auto).
  assert (R4 : run ME w M2 y (map first (w :: M2))) by (rewrite <- (pof_prim w Wp), <- (pof_prim y Yp), <- (L_pof M2 IM2) at 1; rimr M2 (R :: x :: M1) w y [R]; auto).
  apply (run_rev src dst (ok ME) src_twin dst_twin (ok_twin ME)) in R2, R3, RQ.
  refine (k23_of src dst (ok ME) h A K1 K2 (p d) w x y dw _ _ _ _ _ _ _ _ _ _ R1 R2 RF R3 R4 RQ _ _).
  - apply (Permutation_NoDup (l := p d :: (x :: M1 ++ w :: M2 ++ [y]) ++ (dw :: Q))); [perm|]. constructor.
    + intros Z2. apply in_app_iff in Z2. destruct Z2 as [Z2|Z2]; [rewrite <- EL in Z2; apply L_ge in Z2; lia|]. rewrite <- EQ in Z2. destruct (S3 _ Z2) as (J1 & J2 & _ & _). pose proof (anc_le _ _ St _ _ J1 J2). assert (d <= w) by (apply L_ge, in_L; auto). lia.
    + apply NoDup_app_intro; [apply L_NoDup|now rewrite <- EQ|]. intros z Z1 Z2. rewrite <- EL in Z1. rewrite <- EQ in Z2. destruct (S3 z Z2) as (J1 & J2 & J3 & J4). apply (below_L w d' dw z); auto. apply in_L; auto.
  - intros e He. destruct (K3 e He) as [_ Q0]. revert Q0. apply edge_cov. intros z [<-|Hz]; [left; rewrite !in_app_iff; cbn [In]; tauto|]. rewrite !in_app_iff in Hz. destruct Hz as [Hz|Hz].
    + right. rewrite !in_app_iff. do 5 right. now apply twin_in.
    + apply rim_cover in Hz. rewrite EL in Hz. repeat (cbn [map In] in Hz; rewrite ?map_app, ?in_app_iff in Hz).
      destruct Hz as [Hz|[Hz|[Hz|[Hz|[Hz|[Hz|[]]]]]]].
      * right. rewrite !in_app_iff. left. now left.
      * left. rewrite !in_app_iff. do 3 right. left. rewrite <- (twin_invol z). apply twin_in. rewrite <- Hz. now left.
      * left. rewrite !in_app_iff. do 3 right. left. rewrite <- (twin_invol z). apply twin_in. now right.
      * right. rewrite !in_app_iff. do 4 right. left. rewrite <- Hz. now left.
      * right. rewrite !in_app_iff. do 4 right. left. now right.
      * left. rewrite !in_app_iff. right. left. rewrite <- (twin_invol z). rewrite <- Hz. now left.
Qed.
(** Minor E: an edge to w itself, and a chord passing over w. *)
Lemma sub_E A1 px B1 A2 py B2 e : L = A1 ++ px :: B1 ++ w :: A2 ++ py :: B2 -> p d = v -> dst f = w -> In e (adj (eV b) px) -> nb (eV b) e = py ->
  leaves g0 a (f :: rim ++ [e]) h A -> complete_subdivision h A 4.
Proof.
  clear EL x y M1 M2. intros EL Ev Df He Ne Lv. set (ME := f :: rim ++ [e]) in *. destruct (leaves_in ME Lv) as (K1 & K2 & K3). destruct p_d as (P1 & P2 & P3 & P4).
  assert (I3 : incl rim ME) by (intros z Hz; right; rewrite !in_app_iff; auto).
  assert (IL : forall z, z = px \/ z = w \/ z = py \/ In z A1 \/ In z B1 \/ In z A2 \/ In z B2 -> In z L) by (intros z Hz; rewrite EL; rewrite in_app_iff; cbn [In]; rewrite in_app_iff; cbn [In]; rewrite in_app_iff; cbn [In]; intuition).
  assert (Wp : prim w) by (apply L_prim, IL; auto). assert (Xp : prim px) by (apply L_prim, IL; auto). assert (Yp : prim py) by (apply L_prim, IL; auto).
  assert (Okf : ok ME f) by (split; [auto|left; now left]).
  assert (Oke : ok ME e) by (split; [left; exists px; now apply (tu_same a D b Tu)|left; right; apply in_app_iff; right; now left]).
  assert (RF : run ME (p d) [] w [f]) by (rewrite Ev, <- Df, <- Sf; now apply run_one).
  assert (RE : run ME px [] py [e]).
  { assert (E1 : src e = px) by (unfold src; destruct (tu_tw g0 a G D b Tu px e He) as [T _]; rewrite (tu_nb _ _ _ Tu) in T; rewrite T; now apply pof_prim). assert (E2 : dst e = py) by (unfold dst; rewrite <- (tu_nb _ _ _ Tu), Ne; now apply pof_prim). rewrite <- E1, <- E2 at 1. now apply run_one. }
  assert (F1 : map pof A1 = A1) by (apply L_pof; intros z Hz; apply IL; tauto). assert (F2 : map pof B1 = B1) by (apply L_pof; intros z Hz; apply IL; tauto).
  assert (F3 : map pof A2 = A2) by (apply L_pof; intros z Hz; apply IL; tauto). assert (F4 : map pof B2 = B2) by (apply L_pof; intros z Hz; apply IL; tauto).
  assert (R1 : run ME (p d) A1 px (map first (R :: A1))) by (rewrite <- pof_R, <- (pof_prim px Xp), <- F1 at 1; rimr A1 (@nil Z) (R) px (B1 ++ w :: A2 ++ py :: B2 ++ [R]); auto).
  assert (R2 : run ME px B1 w (map first (px :: B1))) by (rewrite <- (pof_prim px Xp), <- (pof_prim w Wp), <- F2 at 1; rimr B1 (R :: A1) px w (A2 ++ py :: B2 ++ [R]); auto).
  assert (R3 : run ME w A2 py (map first (w :: A2))) by (rewrite <- (pof_prim w Wp), <- (pof_prim py Yp), <- F3 at 1; rimr A2 (R :: A1 ++ px :: B1) w py (B2 ++ [R]); auto).
  assert (R4 : run ME py B2 (p d) (map first (py :: B2))) by (rewrite <- pof_R, <- (pof_prim py Yp), <- F4 at 1; rimr B2 (R :: A1 ++ px :: B1 ++ w :: A2) py R (@nil Z); auto).
  apply (run_rev src dst (ok ME) src_twin dst_twin (ok_twin ME)) in R4.
  refine (k4_of src dst (ok ME) h A K1 K2 (p d) px w py _ _ _ _ _ _ _ _ _ _ _ _ R1 RF R4 R2 RE R3 _ _).
  - destruct (L_facts g0 kids St a d G Ad) as (_ & Nd & _). rewrite EL in Nd.
    apply (Permutation_NoDup (l := p d :: A1 ++ px :: B1 ++ w :: A2 ++ py :: B2)); [perm|]. apply NoDup_cons_iff in Nd. constructor; [|apply Nd]. rewrite <- EL. intros Z2. apply L_ge in Z2. lia.
  - intros z0 He0. destruct (K3 z0 He0) as [_ Q0]. revert Q0. apply edge_cov. intros z [<-|Hz]; [left; rewrite !in_app_iff; cbn [In]; tauto|]. rewrite !in_app_iff in Hz. destruct Hz as [Hz|[<-|[]]].
    + apply rim_cover in Hz. rewrite EL in Hz. repeat (cbn [map In] in Hz; rewrite ?map_app, ?in_app_iff in Hz).
      destruct Hz as [Hz|[Hz|[Hz|[Hz|[Hz|[Hz|[Hz|Hz]]]]]]].
      * right. rewrite !in_app_iff. left. rewrite <- Hz. now left.
      * right. rewrite !in_app_iff. left. now right.
      * right. rewrite !in_app_iff. do 3 right. left. rewrite <- Hz. now left.
      * right. rewrite !in_app_iff. do 3 right. left. now right.
      * right. rewrite !in_app_iff. do 5 right. rewrite <- Hz. now left.
      * right. rewrite !in_app_iff. do 5 right. now right.
      * left. rewrite !in_app_iff. do 2 right. left. rewrite <- (twin_invol z). apply twin_in. rewrite <- Hz. now left.
      * left. rewrite !in_app_iff. do 2 right. left. rewrite <- (twin_invol z). apply twin_in. now right.
    + left. rewrite !in_app_iff. cbn [In]. tauto.
Qed.
End Rim.
End Fin.
