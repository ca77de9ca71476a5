(** * IsoKP: the pieces from which the Kuratowski subgraphs are put together. *)
From Coq Require Import ZifyBool Permutation.
From Verif Require Import Base BaseP GraphRec GraphM GraphSpec GSimp LinkP GraphP GraphP2 GraphP3 ListM ListSpec DFSM DFSSpec DFSP TestM TestSpec TestP TestP3 ObsSpec EmbM EmbSpec EmbP EmbP2 FaceP GeoP EmbInv EmbStep EmbTree EmbWalk EmbOrient EmbJoin EmbDown EmbDown3 EmbFan EmbStor FanP IsoM IsoKM IsoP1 IsoP2 IsoP3 IsoP4 IsoO IsoO2 IsoX IsoX2 IsoX3 IsoX4 PlV PlV3 PlI IsoKI IsoKU IsoK IsoKK IsoKA IsoI IsoF IsoT.

Section KP.
Variables (g0 : graph) (kids : Z -> list Z).
Hypothesis St : static g0 kids.
Local Notation N := (gN g0).
Local Notation p := (viParent (gVI g0)).
Local Notation prim := (prim (gN g0)).
Local Notation isroot := (isroot (gN g0)).
Local Notation anc := (ancestor (viParent (gVI g0))).
Local Notation geo := (geo (gN g0) (viParent (gVI g0))).
Local Notation act := (act g0).
Local Notation rp := (rp g0).
Local Notation rpv := (rpv g0).
Local Notation marked := (marked g0).
Local Notation vsof := (vsof (gN g0)).
Local Notation pof := (pof g0).
Variables (a : est) (d : Z) (L : list Z).
Local Notation s := (eV a).
Local Notation R := (gN g0 + d).
Hypothesis G : geo NIL [] s.
Hypothesis Ad : act s d.
Hypothesis LW : Lw g0 s R L.
Hypothesis FW : fwok g0 a.
Hypothesis PT : ptypes a.
Local Notation G0 := (g_base _ _ _ _ _ G).
Local Notation src := (IsoF.src g0 a).
Local Notation dst := (IsoF.dst g0 a).
Local Notation con ME := (con (IsoF.src g0 a) (IsoF.dst g0 a) (ok a ME)).
Local Notation con0 ME := (con0 (IsoF.src g0 a) (IsoF.dst g0 a) (ok a ME)).
Local Notation run ME := (run (IsoF.src g0 a) (IsoF.dst g0 a) (ok a ME)).
Local Notation ups := (ups g0 a).
Let FA := K_facts g0 kids St a d L G Ad LW.

(** ** Tree paths *)
Lemma ups_con0 ME u t l : prim u -> prim t -> ups u t l -> incl l ME ->
  con0 ME t (map src l) u l /\ NoDup (map src l ++ [u]) /\ (forall z, In z (map src l) -> prim z /\ anc u z /\ z <> u /\ anc z t).
Proof.
  intros Pu Pt U I. destruct (ups_pth g0 kids St a G PT ME u l Pu t Pt U I) as (T1 & T2 & T3 & _). split; [|split; [|auto]].
  - destruct l as [|e l]; [left; auto|]. right. pose proof (pth_src _ _ _ _ _ _ T1) as Q. cbn [map app] in Q. injection Q as Q0 Q. exists (map src l). split; [|cbn [map]; rewrite Q0; reflexivity].
    apply con_run. split; [exact T1|]. cbn [map]. now rewrite <- Q.
  - apply NoDup_app_intro; [auto|repeat constructor; intros []|]. intros z Hz [<-|[]]. apply T3 in Hz. tauto.
Qed.
Lemma ups_con ME u t l : prim u -> prim t -> t <> u -> ups u t l -> incl l ME -> exists I, map src l = t :: I /\ con ME t I u l.
Proof.
  intros Pu Pt Ne U I. destruct (ups_pth g0 kids St a G PT ME u l Pu t Pt U I) as (T1 & T2 & T3 & _).
  destruct l as [|e l]; [cbn [IsoP1.ups] in U; congruence|]. pose proof (pth_src _ _ _ _ _ _ T1) as Q. cbn [map app] in Q. injection Q as Q0 Q. exists (map src l). split; [cbn [map]; now rewrite Q0|].
  apply con_run. split; [exact T1|]. cbn [map]. now rewrite <- Q.
Qed.
Lemma ups_split u m : prim u -> prim m -> anc u m -> forall l t, prim t -> anc m t -> ups u t l -> exists l1 l2, l = l1 ++ l2 /\ ups m t l1 /\ ups u m l2.
Proof.
  intros Pu Pm Aum. induction l as [|e l IH]; intros t Pt Amt U.
  - cbn [IsoP1.ups] in U. subst t. pose proof (anc_le _ _ St _ _ Pu Amt). pose proof (anc_le _ _ St _ _ Pm Aum). assert (m = u) by lia. subst m. exists [], []. cbn. auto.
  - destruct (Z.eq_dec t m) as [->|Ne]; [exists [], (e :: l); cbn; auto|]. cbn [IsoP1.ups] in U. destruct U as (U1 & U2 & U3 & U4). destruct (anc_up g0 m t Amt (not_eq_sym Ne)) as [K1 K2]. destruct (Hp g0 kids St t Pt K1) as [K3 _].
    destruct (IH (p t) K3 K2 U4) as (l1 & l2 & -> & V1 & V2). exists (e :: l1), l2. split; [auto|]. split; [|auto]. cbn. auto.
Qed.
Lemma fw_arc u f : In f (fw a u) -> arc a f /\ src f = u /\ dst f = nb s f.
Proof.
  intros Hf. destruct (fw_prim g0 kids St a FW u f Hf) as (P1 & P2 & _). split; [right; exists u; auto|]. unfold IsoF.src, IsoF.dst. rewrite (fo_twin _ _ FW u f Hf), !(pof_prim g0) by auto. auto.
Qed.
Lemma edge_con ME u f : In f (fw a u) -> In f ME -> con ME (nb s f) [] u [f].
Proof.
  intros Hf Hm. destruct (fw_arc u f Hf) as (A1 & A2 & A3). apply (con_sym _ _ _ (src_twin g0 a) (dst_twin g0 a) (ok_twin g0 a G ME)). rewrite <- A3, <- A2 at 1. apply con_edge. split; auto.
Qed.
(** From z down to t and up to u. *)
Lemma leg_con ME z t u f l : prim z -> prim t -> ups z t l -> In f (fw a u) -> nb s f = t -> incl (f :: l) ME -> con ME z (map src l) u (f :: l).
Proof.
  intros Pz Pt U Hf <- I. destruct (ups_con0 ME z _ l Pz Pt U (fun e He => I e (or_intror He))) as (C & _). pose proof (edge_con ME u f Hf (I f (or_introl eq_refl))) as C2.
  destruct C as [(E & -> & ->)|(J & C & P)]; [now rewrite <- E|]. apply (con_sym _ _ _ (src_twin g0 a) (dst_twin g0 a) (ok_twin g0 a G ME)) in C.
  apply (con_perm _ _ _ z (nb s f :: J ++ []) (map src l) u (l ++ [f])); [rewrite app_nil_r; auto|intros e; rewrite in_app_iff; cbn [In]; tauto|]. now apply con_app.
Qed.

(** ** Disjointness *)
(** below z on the way to t *)
Definition below (z t q : Z) : Prop := prim q /\ anc z q /\ q <> z /\ anc q t.
Lemma leg_child P z t q : prim z -> prim t -> leg g0 a P z t -> below z t q -> exists c, act s c /\ p c = z /\ anc c q /\ P c.
Proof.
  intros Pz Pt [->|(c & C1 & C2 & C3 & C4)] (Q1 & Q2 & Q3 & Q4).
  - exfalso. apply Q3. pose proof (anc_le _ _ St _ _ Pz Q4). pose proof (anc_le _ _ St _ _ Q1 Q2). lia.
  - exists c. split; [auto|]. split; [auto|]. split; [|auto]. destruct (Z_le_dec c q) as [H|H]; [apply (anc_total _ _ St _ _ t); auto; try apply C1; try lia|].
    exfalso. assert (H0 : anc q c) by (apply (anc_total _ _ St _ _ t); auto; try apply C1; try lia). destruct (anc_up g0 q c H0) as [_ K]; [lia|]. rewrite C2 in K. apply Q3. pose proof (anc_le _ _ St _ _ Pz K). pose proof (anc_le _ _ St _ _ Q1 Q2). lia.
Qed.
Lemma leg_anc P z t : prim z -> leg g0 a P z t -> anc z t.
Proof. intros Pz [->|(c & C1 & C2 & C3 & C4)]; [constructor|]. apply (anc_trans _ _ c); [|auto]. apply anc_step; [apply C1|]. rewrite C2. constructor. Qed.
Lemma child_out z c q : In z L -> act s c -> p c = z -> prim q -> anc c q -> R < B s q /\ d < q.
Proof.
  intros Hz Ac Ec Pq Aq. pose proof (B_near g0 kids St _ _ _ c q G Ac Pq Aq) as Q. destruct (proj2 FA z Hz) as (P1 & _ & P3 & _). pose proof (anc_le _ _ St _ _ P1 P3). destruct Ac as (A1 & A2 & _). destruct (Hp g0 kids St c A1 A2). pose proof (anc_le _ _ St _ _ Pq Aq). lia.
Qed.
Lemma leg_out P z t q : In z L -> prim t -> leg g0 a P z t -> below z t q -> prim q /\ R < B s q /\ d < q.
Proof.
  intros Hz Pt Lg Bq. destruct (proj2 FA z Hz) as (P1 & _). destruct (leg_child P z t q P1 Pt Lg Bq) as (c & C1 & C2 & C3 & _). split; [apply Bq|]. apply (child_out z c q); auto. apply Bq.
Qed.
Lemma leg_dj0 P z t z' q : In z L -> In z' L -> z < z' -> prim t -> leg g0 a P z t -> below z t q -> anc z' q -> False.
Proof.
  intros Hz Hz' Lt Pt Lg Bq A'. destruct (proj2 FA z Hz) as (P1 & _). destruct (proj2 FA z' Hz') as (P1' & P2' & _). destruct (leg_child P z t q P1 Pt Lg Bq) as (c & C1 & C2 & C3 & _).
  destruct Bq as (Q1 & Q2 & Q3 & Q4). assert (A : anc z z') by (apply (anc_total _ _ St _ _ q); auto; try lia).
  destruct (Z_le_dec c z') as [H|H].
  - assert (anc c z') by (apply (anc_total _ _ St _ _ q); auto; try apply C1; try lia). destruct (child_out z c z'); auto. lia.
  - assert (H0 : anc z' c) by (apply (anc_total _ _ St _ _ q); auto; try apply C1; try lia). destruct (anc_up g0 z' c H0) as [_ K]; [lia|]. rewrite C2 in K. pose proof (anc_le _ _ St _ _ P1 K). lia.
Qed.
Lemma leg_dj P P' z t z' t' q : In z L -> In z' L -> z <> z' -> prim t -> prim t' -> leg g0 a P z t -> leg g0 a P' z' t' -> below z t q -> below z' t' q -> False.
Proof.
  intros Hz Hz' Ne Pt Pt' Lg Lg' Bq Bq'. destruct (Z_lt_dec z z').
  - apply (leg_dj0 P z t z' q); auto. apply Bq'.
  - apply (leg_dj0 P' z' t' z q); auto; [lia|apply Bq].
Qed.
(** two ways down from one vertex, through different children *)
Lemma leg_dj2 (P P' : Z -> Prop) z t t' q : prim z -> prim t -> prim t' -> leg g0 a P z t -> leg g0 a P' z t' -> (forall c, P c -> P' c -> False) -> below z t q -> below z t' q -> False.
Proof.
  intros Pz Pt Pt' Lg Lg' Dj Bq Bq'. destruct (leg_child P z t q Pz Pt Lg Bq) as (c & C1 & C2 & C3 & C4). destruct (leg_child P' z t' q Pz Pt' Lg' Bq') as (c' & C1' & C2' & C3' & C4').
  assert (c = c'); [|subst; eauto]. assert (K : forall c c', act s c -> act s c' -> p c = z -> p c' = z -> anc c q -> anc c' q -> c <= c' -> c = c').
  { clear - St Bq. intros c c' (A1 & A2 & _) (A1' & A2' & _) E E' Q Q' Lt. destruct (Z.eq_dec c c') as [|Ne]; [auto|]. exfalso. assert (anc c c') by (apply (anc_total _ _ St _ _ q); auto; apply Bq).
    destruct (anc_up g0 c c' H Ne) as [_ K]. rewrite E' in K. destruct (Hp g0 kids St c A1 A2) as [Pz Lz]. rewrite E in *. pose proof (anc_le _ _ St _ _ Pz K). lia. }
  destruct (Z_le_dec c c'); [apply K; auto|symmetry; apply K; auto; lia].
Qed.
(** The tree path above, the component and the ways down from its external face. *)
Lemma master (T C J : list Z) : NoDup T -> NoDup C -> NoDup J -> (forall z, In z T -> z < d) -> (forall z, In z C -> prim z /\ B s z = R) -> (forall z, In z J -> prim z /\ R < B s z /\ d < z) -> NoDup (T ++ C ++ J).
Proof.
  intros NT NC NJ HT HC HJ. apply NoDup_app_intro; [auto|apply NoDup_app_intro; [auto|auto|]|].
  - intros z Z1 Z2. apply HC in Z1. apply HJ in Z2. lia.
  - intros z Z1 Z2. apply HT in Z1. apply in_app_iff in Z2. destruct Z2 as [Z2|Z2].
    + destruct (HC z Z2) as [P1 P2]. destruct (B_anc g0 kids St _ _ _ d z G (proj1 Ad) P1 P2) as [Q _]. pose proof (anc_le _ _ St _ _ P1 Q). lia.
    + apply HJ in Z2. lia.
Qed.

(** ** The external face *)
Section Rim.
Variables (D : Z -> bool) (b : est).
Hypothesis Tu : turned a D b.
Hypothesis DT : forall x, In x (vsof s R) -> D x = true.
Definition lst (x : Z) : Z := last (adj (eV b) x) NIL.
Let PR := Kt_rims g0 a d L G Ad LW D b Tu DT.
Let Sm := Kt_same a D b Tu.
Lemma K_pof x : In x L -> pof x = x.
Proof. intros H. apply pof_prim. now apply (proj2 FA). Qed.
Lemma seg_con ME : forall mid l1 u w l2, R :: L ++ [R] = l1 ++ u :: mid ++ w :: l2 -> incl (map lst (mid ++ [w])) ME -> con ME (pof u) (map pof mid) (pof w) (map lst (mid ++ [w])).
Proof.
  assert (K : forall l1 u w l2, R :: L ++ [R] = l1 ++ u :: w :: l2 -> In (lst w) ME -> con ME (pof u) [] (pof w) [lst w]).
  { intros l1 u w l2 E I. destruct (PR _ _ _ _ E) as (I1 & I2 & N1 & N2 & E3 & E4 & E5). change (last (adj (eV b) w) NIL) with (lst w) in *. set (e := hd NIL (adj (eV b) u)) in *.
    assert (He : In e (adj (eV b) u)) by (now apply hd_in). destruct (Kt_tw g0 a G D b Tu u e He) as [T1 _]. apply Sm in He. rewrite (tu_nb _ _ _ Tu) in T1, E4.
    assert (Q : run ME (src e) [] (dst e) [e]) by (apply run_one; split; [left; eauto|right; now rewrite E3]). unfold IsoF.src, IsoF.dst in Q. rewrite T1, E4 in Q.
    exists [e], []. split; [exact Q|]. split; [reflexivity|]. intros e' [<-|[]]. right. rewrite <- E3, twin_invol. now left. }
  induction mid as [|y mid IH]; intros l1 u w l2 E I.
  - apply (K l1 u w l2 E). apply I. now left.
  - cbn [app map] in *. apply (con_perm _ _ _ (pof u) (pof y :: [] ++ map pof mid) _ (pof w) ([lst y] ++ map lst (mid ++ [w]))); [reflexivity|apply incl_refl|]. apply con_app.
    + apply (K l1 u y (mid ++ w :: l2) E). apply I. now left.
    + apply (IH (l1 ++ [u]) y w l2); [rewrite E, <- app_assoc; reflexivity|]. intros e He. apply I. now right.
Qed.
Lemma map_pof l : incl l L -> map pof l = l.
Proof. intros I. rewrite <- (map_id l) at 2. apply map_ext_in. intros x Hx. apply K_pof. auto. Qed.
(** a piece between two vertices other than the root; from the root; to the root *)
Lemma seg_in ME l1 u mid w l2 : L = l1 ++ u :: mid ++ w :: l2 -> incl (map lst (mid ++ [w])) ME -> con ME u mid w (map lst (mid ++ [w])).
Proof.
  intros E I. assert (IL : forall z, In z (u :: mid ++ [w]) -> In z L) by (intros z Hz; rewrite E; rewrite in_app_iff; cbn [In] in *; rewrite in_app_iff in *; cbn [In] in *; tauto).
  assert (Q := seg_con ME mid (R :: l1) u w (l2 ++ [R])). rewrite (K_pof u), (K_pof w), map_pof in Q; [|intros z Hz; apply IL; right; apply in_app_iff; auto|apply IL; right; apply in_app_iff; right; now left|apply IL; now left].
  apply Q; auto. rewrite E. repeat (rewrite <- ?app_assoc; cbn [app]). reflexivity.
Qed.
Lemma seg_from ME mid w l2 : L = mid ++ w :: l2 -> incl (map lst (mid ++ [w])) ME -> con ME (p d) mid w (map lst (mid ++ [w])).
Proof.
  intros E I. assert (IL : forall z, In z (mid ++ [w]) -> In z L) by (intros z Hz; rewrite E; rewrite in_app_iff in *; cbn [In] in *; tauto).
  assert (Q := seg_con ME mid [] R w (l2 ++ [R])). rewrite (pof_R g0 a d Ad), (K_pof w), map_pof in Q; [|intros z Hz; apply IL; apply in_app_iff; auto|apply IL; apply in_app_iff; right; now left].
  apply Q; auto. rewrite E. repeat (rewrite <- ?app_assoc; cbn [app]). reflexivity.
Qed.
Lemma seg_to ME l1 u mid : L = l1 ++ u :: mid -> incl (map lst (mid ++ [R])) ME -> con ME u mid (p d) (map lst (mid ++ [R])).
Proof.
  intros E I. assert (IL : forall z, In z (u :: mid) -> In z L) by (intros z Hz; rewrite E; rewrite in_app_iff in *; cbn [In] in *; tauto).
  assert (Q := seg_con ME mid (R :: l1) u R []). rewrite (pof_R g0 a d Ad), (K_pof u), map_pof in Q; [|intros z Hz; apply IL; now right|apply IL; now left].
  apply Q; auto. rewrite E. repeat (rewrite <- ?app_assoc; cbn [app]). reflexivity.
Qed.

(** ** Marking *)
Variables (f : Z -> Z) (F0 : Z -> Z) (stk : list Z).
Local Notation b' := (setfp b f).
Lemma lst_rng e x g F : rpv g (setfl b' F) stk -> In e (adj (eV b) x) -> 2 <= e < gp_EdgeIndexBound g0 /\ 2 <= twin e < gp_EdgeIndexBound g0.
Proof.
  intros H He. destruct (Kt_tw g0 a G D b Tu x e He) as [_ T2]. assert (Q : forall y d, In d (adj (eV b) y) -> 2 <= d < gp_EdgeIndexBound g0). { intros y d0 Hd. rewrite <- (rpv_cap g0 _ _ _ H). apply (ch_range _ _ (r_chains _ _ _ _ H) y). exact Hd. } split; eapply Q; eauto.
Qed.
Lemma seg_mark g F ME l1 u mid w l2 : R :: L ++ [R] = l1 ++ u :: mid ++ w :: l2 -> rpv g (setfl b' F) stk -> marked F0 F ME ->
  exists g' F', _MarkPathAlongBicompExtFace g u w = Ret g' /\ rpv g' (setfl b' F') stk /\ marked F0 F' (map lst (mid ++ [w]) ++ ME).
Proof.
  intros E H M. assert (IR : forall z, In z (u :: mid ++ [w]) -> In z (R :: L)).
  { intros z Hz. assert (Q : In z (R :: L ++ [R])) by (rewrite E, in_app_iff; cbn [In] in *; rewrite in_app_iff in *; cbn [In] in *; tauto). cbn [In] in *. rewrite in_app_iff in Q. cbn [In] in Q. tauto. }
  unfold _MarkPathAlongBicompExtFace. destruct (set_vmark g0 _ _ _ u H) as (g1 & E1 & H1); [apply (K_rng g0 kids St a d L G Ad LW), IR; now left|]. rewrite E1. cbn [bind].
  pose proof (rpv_N g0 _ _ _ H1) as KN. assert (Nd : NoDup (mid ++ w :: l2)).
  { assert (Q : NoDup (L ++ [R])) by (apply (Permutation_NoDup (l := R :: L)); [apply Permutation_cons_append|apply FA]). destruct l1 as [|r l1]; injection E as E0 E; [rewrite E in Q; auto|]. rewrite E in Q. apply NoDup_app_r in Q. now apply NoDup_cons_iff in Q. }
  assert (Ll : (length mid < S (S (Z.to_nat (2 * N))))%nat).
  { pose proof (K_len g0 kids St a d L G Ad LW) as Q. apply (f_equal (@length Z)) in E. repeat (cbn [length] in E; rewrite ?app_length in E). lia. }
  destruct (mark_face_ok g0 b' R L (K_rng g0 kids St a d L G Ad LW) F0 stk w (fun x e He => lst_rng e x g F H He) mid u (S (S (Z.to_nat (2 * gN g1)))) g1 F ME H1 M) as (g' & F' & E' & H' & M').
  - pose proof (walk_fwd g0 b' R L (K_rng g0 kids St a d L G Ad LW) PR) as Q. rewrite E in Q. apply walk_r in Q. replace (u :: mid ++ w :: l2) with ((u :: mid ++ [w]) ++ l2) in Q by (cbn [app]; rewrite <- app_assoc; reflexivity). now apply walk_l in Q.
  - intros Q. apply (NoDup_app_disj _ _ w Nd Q). now left.
  - intros z Hz. apply IR. now right.
  - intros z Hz. assert (Q : exists k y k2, u :: mid ++ [w] = k ++ y :: z :: k2).
    { destruct (in_split _ _ Hz) as (k1 & k2 & Ek). destruct (list_snoc (u :: k1)) as [Q|(k & y & Q)]; [discriminate|]. exists k, y, k2. rewrite Ek. change (u :: k1 ++ z :: k2) with ((u :: k1) ++ z :: k2). rewrite Q, <- app_assoc. reflexivity. }
    destruct Q as (k & y & k2 & Q). apply (PR (l1 ++ k) y z (k2 ++ l2)). rewrite E. rewrite <- app_assoc. f_equal. replace (u :: mid ++ w :: l2) with ((u :: mid ++ [w]) ++ l2) by (cbn [app]; rewrite <- app_assoc; reflexivity). rewrite Q, <- app_assoc. reflexivity.
  - rewrite KN. exact Ll.
  - change (map (fun x => last (adj (eV b') x) NIL)) with (map lst) in M'. exists g', F'. split; [exact E'|]. split; [auto|]. eapply marked_mem; [exact M'|]. intros e. rewrite !in_app_iff, map_rev, <- !in_rev. tauto.
Qed.

(** ** Finishing *)
Hypothesis SO : stor g0 a.
Hypothesis NL : noloop g0 a.
Hypothesis E0 : forall e, Z.land (F0 e) EDGE_TYPE_MASK = ty a e.
Definition dzl (i : icx) : list (Z * Z) := if idz i =? NIL then [] else [(iuz i, idz i)].
Definition wayto (z u t : Z) : Prop := prim z /\ prim t /\ anc z t /\ exists f, In f (fw a u) /\ nb s f = t.
Lemma fin_ok g F ME i top bot : rpv g (setfl b' F) stk -> marked F0 F ME -> prim top -> (prim bot /\ anc top bot) \/ bot = R /\ anc top (p d) ->
  wayto (ix i) (iux i) (idx i) -> wayto (iy i) (iuy i) (idy i) -> wayto (iw i) (iv i) (idw i) -> (idz i = NIL \/ wayto (iw i) (iuz i) (idz i)) ->
  NoDup ((iux i, idx i) :: (iuy i, idy i) :: (iv i, idw i) :: dzl i) ->
  exists g' h A tl lx ly lw lz fx fy fw0 fz, finish_minor g i top bot = Ret (g', C_OK) /\ _DeleteUnmarkedVerticesAndEdges g' = Ret h /\
    leaves g0 a (tl ++ (fx :: lx) ++ (fy :: ly) ++ (fw0 :: lw) ++ (fz ++ lz) ++ ME) h A /\ ups top (pof bot) tl /\ ups (ix i) (idx i) lx /\ ups (iy i) (idy i) ly /\ ups (iw i) (idw i) lw /\
    (In fx (fw a (iux i)) /\ nb s fx = idx i) /\ (In fy (fw a (iuy i)) /\ nb s fy = idy i) /\ (In fw0 (fw a (iv i)) /\ nb s fw0 = idw i) /\
    (idz i = NIL /\ fz = [] /\ lz = [] \/ idz i <> NIL /\ ups (iw i) (idz i) lz /\ exists f, fz = [f] /\ In f (fw a (iuz i)) /\ nb s f = idz i).
Proof.
  intros H M Pt Hb (X1 & X2 & X3 & X4) (Y1 & Y2 & Y3 & Y4) (W1 & W2 & W3 & W4) Hz Nd. unfold finish_minor, seq_ok, _MarkDFSPathsToDescendants, seq_ok.
  assert (Nb : forall e, nb (eV b) e = nb s e) by (intros e; now rewrite (tu_nb _ _ _ Tu)).
  pose proof (mark_path_ok g0 kids St a G0 PT b' Sm Nb F0 E0 stk) as MP.
  destruct (MP top bot g F ME Pt H M) as (g1 & F1 & tl & T1 & H1 & M1 & U1); [destruct Hb as [Q|[Q0 Q]]; [auto|right; exists d; split; [auto|]; split; [apply Ad|]; split; [apply Ad|auto]]|]. rewrite T1. cbn [bind]. rewrite Z.eqb_refl.
  destruct (MP (ix i) (idx i) g1 F1 _ X1 H1 M1) as (g2 & F2 & lx & T2 & H2 & M2 & U2); [auto|]. rewrite T2. cbn [bind]. rewrite Z.eqb_refl.
  destruct (MP (iy i) (idy i) g2 F2 _ Y1 H2 M2) as (g3 & F3 & ly & T3 & H3 & M3 & U3); [auto|]. rewrite T3. cbn [bind]. rewrite Z.eqb_refl.
  assert (Pn : forall t, prim t -> t <> NIL) by (intros t Q; unfold GeoP.prim, NIL in *; lia). rewrite (eqb_false_neq (idw i) NIL) by auto.
  destruct (MP (iw i) (idw i) g3 F3 _ W1 H3 M3) as (g4 & F4 & lw & T4 & H4 & M4 & U4); [auto|]. rewrite T4. cbn [bind]. rewrite Z.eqb_refl.
  rewrite (pof_prim g0 _ X2) in U2. rewrite (pof_prim g0 _ Y2) in U3. rewrite (pof_prim g0 _ W2) in U4.
  assert (exists g5 F5 lz, (if idz i =? NIL then Ret (g4, C_OK) else _MarkDFSPath g4 (iw i) (idz i)) = Ret (g5, C_OK) /\ rpv g5 (setfl b' F5) stk /\ marked F0 F5 (lz ++ lw ++ ly ++ lx ++ tl ++ ME) /\
    (idz i = NIL /\ lz = [] \/ idz i <> NIL /\ ups (iw i) (idz i) lz)) as (g5 & F5 & lz & T5 & H5 & M5 & U5).
  { destruct (Z.eqb_spec (idz i) NIL) as [Q|Q]; [exists g4, F4, []; split; [reflexivity|]; split; [exact H4|]; split; [exact M4|auto]|]. destruct Hz as [Hz|(Z1 & Z2 & Z3 & Z4)]; [congruence|].
    destruct (MP (iw i) (idz i) g4 F4 _ Z1 H4 M4) as (g5 & F5 & lz & T5 & H5 & M5 & U5); [auto|]. rewrite (pof_prim g0 _ Z2) in U5. exists g5, F5, lz. auto 10. }
  rewrite T5. cbn [bind]. rewrite Z.eqb_refl.
  destruct (finish_list_ok g0 kids St a G0 FW SO NL b' stk g5 _ F0 F5 _ H5 M5 Sm Nb (fun u e => ltac:(change (fw b') with (fw b); now rewrite (tu_fw _ _ _ Tu))) Nd) as (g6 & g7 & h & A & fs & T6 & T7 & T8 & Lv & F2f).
  { intros u t [Q|[Q|[Q|Q]]]; [injection Q as <- <-; auto..|]. unfold dzl in Q. destruct (Z.eqb_spec (idz i) NIL) as [Q0|Q0]; [destruct Q|]. destruct Q as [Q|[]]. injection Q as <- <-. destruct Hz as [Hz|(Z1 & Z2 & Z3 & Z4)]; [congruence|auto]. }
  rewrite T6. cbn [bind]. rewrite Z.eqb_refl.
  inversion F2f as [|e1 fx ? fs1 Fx R1 EQ1 EQ1']; subst. inversion R1 as [|e2 fy ? fs2 Fy R2 EQ2 EQ2']; subst. inversion R2 as [|e3 fw0 ? fz Fz R3 EQ3 EQ3']; subst. cbn [fst snd] in *.
  exists g7, h, A, tl, lx, ly, lw, lz, fx, fy, fw0, fz. split.
  - unfold _AddAndMarkUnembeddedEdges. cbn [add_list] in T7. unfold dzl in T7. rewrite (eqb_false_neq (idw i) NIL) by auto.
    destruct (_AddAndMarkEdge g6 (iux i) (idx i)) as [k1| |]; cbn [bind] in *; try discriminate. destruct (_AddAndMarkEdge k1 (iuy i) (idy i)) as [k2| |]; cbn [bind] in *; try discriminate. destruct (_AddAndMarkEdge k2 (iv i) (idw i)) as [k3| |]; cbn [bind] in *; try discriminate.
    destruct (idz i =? NIL); cbn [add_list] in T7; [injection T7 as ->; reflexivity|]. destruct (_AddAndMarkEdge k3 (iuz i) (idz i)) as [k4| |]; cbn [bind] in *; try discriminate. injection T7 as ->. reflexivity.
  - split; [exact T8|]. split.
    + assert (Mm : forall e, In e ((fx :: fy :: fw0 :: fz) ++ lz ++ lw ++ ly ++ lx ++ tl ++ ME) <-> In e (tl ++ (fx :: lx) ++ (fy :: ly) ++ (fw0 :: lw) ++ (fz ++ lz) ++ ME)) by (intros e; repeat (cbn [app In]; rewrite ?in_app_iff); tauto).
      destruct Lv as [V1 V2 V3 V4 V5 V6 V7 V8 V9 V10 V11]. constructor; auto. intros z e. rewrite V2, !Mm. tauto.
    + repeat (split; [auto|]). unfold dzl in R3. destruct (Z.eqb_spec (idz i) NIL) as [Q|Q].
      * left. inversion R3. destruct U5 as [[_ ->]|[Q1 _]]; [auto|congruence].
      * right. destruct U5 as [[Q1 _]|[_ Q1]]; [congruence|]. split; [auto|]. split; [auto|]. inversion R3 as [|e4 f4 ? fs4 Ff R4 EQ4 EQ4']; subst. inversion R4; subst. eauto.
Qed.
Lemma cov_of ME h A l : leaves g0 a ME h A -> incl ME l -> covers A l.
Proof. intros Lv I e He. destruct (leaves_in g0 a h A ME Lv) as (_ & _ & K). destruct (K e He) as [_ [Q|Q]]; auto. Qed.
End Rim.
End KP.
