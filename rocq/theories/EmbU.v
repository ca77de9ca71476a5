(** * EmbU: what the walk down keeps whether or not the graph is planar. *)
From Coq Require Import ZifyBool Permutation Sorted.
From Verif Require Import Base BaseP GraphRec GraphM GraphSpec GSimp LinkP GraphP2 ListM ListSpec ListP DFSM DFSSpec DFSP TestM TestP EmbM EmbSpec EmbP FaceP GeoP GeoP2 EmbInv EmbStep EmbTree EmbWalk EmbUp EmbJoin EmbDown PlanSpec EmbC1 EmbC2 EmbC3 EmbC4 FanP.

(** No condition on the edges: with it [cinv] says nothing about minors. *)
Definition anye : Z -> Z -> Prop := fun _ _ => True.
Lemma anye_sym x y : anye x y -> anye y x.
Proof. auto. Qed.

Section Uncond.
Variables (g0 : graph) (kids : Z -> list Z).
Hypothesis St : static g0 kids.
Local Notation N := (gN g0).
Local Notation p := (viParent (gVI g0)).
Local Notation prim := (prim (gN g0)).
Local Notation anc := (ancestor (viParent (gVI g0))).
Local Notation act := (act g0).
Local Notation fsim := (fsim g0).
Local Notation dinv := (EmbDown.dinv g0 kids).
Variable E : Z -> Z -> Prop.
Local Notation cinv := (cinv g0 E).
Local Notation vat := (vat g0).
Local Notation tat := (tat g0).
Local Notation ends := (ends g0).

(** What is kept between two vertices. *)
Record emore (v : Z) (a : est) : Prop := {
  em_E : forall u f, In f (fw a u) -> E u (nb (eV a) f) /\ f <> NIL;
  em_least : forall x, prim x -> viLeast (gVI g0) x < v -> viLeast (gVI g0) x < x -> exists f, In f (fw a (viLeast (gVI g0) x)) /\ nb (eV a) f = x;
  em_low : forall d, prim d -> viLow (gVI g0) d < v -> viLow (gVI g0) d < d -> exists f, In f (fw a (viLow (gVI g0) d)) /\ anc d (nb (eV a) f);
  em_cyc : forall d, act (eV a) d -> exists Y, cyc g0 E (eV a) d Y /\ FanP.sub (X (eV a) (N + d)) Y;
  em_ends : forall d, act (eV a) d -> ends a d }.
Lemma emore_cinv v a b : emore v a -> (forall x y, E x y -> E y x) -> fsim (eV a) (eV b) -> fw b = fw a -> (forall f, In f (fw b v) -> pe b (nb (eV b) f) = f /\ recd g0 v b (nb (eV b) f)) -> prlord g0 v b ->
  keep g0 (v + 1) b -> (forall u, v < u -> fw b u = []) -> cinv v NIL b.
Proof.
  intros C Es S Ef H1 H2 H3 H4. pose proof (fun d => fsim_act g0 _ _ d S) as Ea. pose proof (fs_nb _ _ S) as En. constructor; auto.
  - rewrite Ef, En. apply (em_E _ _ C).
  - rewrite Ef, En. apply (em_least _ _ C).
  - rewrite Ef, En. apply (em_low _ _ C).
  - intros d Ad. apply Ea in Ad. destruct (em_cyc _ _ C d Ad) as (Y & J1 & J2). destruct (fs_X _ _ S (N + d)) as [EX|EX]; rewrite EX.
    + exists Y. split; [|auto]. apply (cyc_same g0 E (eV a)); [apply (fs_B _ _ S)|auto].
    + exists (rev Y). split; [|now apply sub_rev]. apply cyc_rev; auto. apply (cyc_same g0 E (eV a)); [apply (fs_B _ _ S)|auto].
  - intros d Ad _. apply Ea in Ad. destruct (em_ends _ _ C d Ad) as [H|[H|[J1 J2]]].
    + left. destruct (fs_X _ _ S (N + d)) as [-> | ->]; rewrite ?rev_length; auto.
    + right; left. rewrite Ef, En. auto.
    + right; right. rewrite !(uact_same g0 a b Ea En Ef). destruct (fs_X _ _ S (N + d)) as [-> | ->]; [auto|]. rewrite hd_rev, last_rev. auto.
Qed.
Lemma cinv_emore v a : cinv v NIL a -> emore (v - 1) a.
Proof.
  intros []. constructor; auto.
  - intros x Px L1 L2. apply ci_least; auto. lia.
  - intros x Px L1 L2. apply ci_low; auto. lia.
  - intros d Ad. apply ci_ends; auto. destruct Ad as [A _]. unfold GeoP.prim, NIL in *. lia.
Qed.

(** ** The end of a walk down one side *)
Definition finU (two : bool) (v c : Z) (b : est) : Prop :=
  if two then (tat v b [] (hd NIL (X (eV b) (N + c))) /\ ~ vat v b [] (hd NIL (X (eV b) (N + c)))) /\ (tat v b [] (last (X (eV b) (N + c)) NIL) /\ ~ vat v b [] (last (X (eV b) (N + c)) NIL)) \/ NV g0 v c b /\ ends b c
  else tat v b [] (hd NIL (X (eV b) (N + c))) /\ ~ vat v b [] (hd NIL (X (eV b) (N + c))) \/ short g0 v c b.
Section End_.
Variables (v c : Z) (a : est).
Hypotheses (Pv : prim v) (Pc : prim c) (Ec : p c = v).
Hypotheses (D : dinv v c a) (C : cinv v c a) (Ac : act (eV a) c).
Lemma pass_u two : (forall x, In x (X (eV a) (N + c)) -> ~ vat v a [] x /\ ~ tat v a [] x) -> finU two v c a.
Proof. intros H. destruct (pass_more g0 kids St E v c a Pv Pc Ec D C Ac two H) as [_ K]. destruct two; cbn [finU fin] in *; auto. Qed.
Lemma stop_u two b P W Q P1 w1 xs :
  nb (eV b) = nb (eV a) -> adj (eV b) = adj (eV a) -> B (eV b) = B (eV a) -> fw b = fw a -> pe b = pe a -> prl b = prl a ->
  X (eV a) (N + c) = P ++ W :: Q -> P ++ W :: Q = P1 ++ w1 :: xs -> X (eV b) (N + c) = w1 :: xs -> (forall R, R <> N + c -> X (eV b) R = X (eV a) R) -> xs <> [] ->
  w1 = W /\ P1 = P \/ Q = [] /\ xs = [W] /\ P = P1 ++ [w1] -> (forall x, In x P -> ~ vat v a [] x /\ ~ tat v a [] x) -> ~ vat v a [] W -> tat v a [] W ->
  (two = true -> Gd g0 v c a) -> cinv v c b /\ finU two v c b.
Proof.
  intros En Ed EB Ef Ep Er XA EX XB XO Nx Alt HP NW TW Hg.
  assert (Ea : forall d, act (eV b) d <-> act (eV a) d) by (apply stop_act; auto).
  assert (HV : forall x, vat v b [] x <-> vat v a [] x) by (intros x; apply vat_same; auto). assert (HT : forall x, tat v b [] x <-> tat v a [] x) by (intros x; apply tat_same; auto).
  split; [apply (cinv_stop g0 E v c a b P1 (w1 :: xs)); auto; [apply (d_fw _ _ _ _ _ D)|now rewrite XA|]; intros x Hx; apply HP; destruct Alt as [[_ <-]|(_ & _ & ->)]; [auto|]; apply in_app_iff; auto|].
  assert (HN : NV g0 v c a -> NV g0 v c b) by (unfold NV; now rewrite Ef, En). assert (HN' : NT g0 v c a -> NT g0 v c b) by (unfold NT; now rewrite Ef, En).
  destruct Alt as [[-> ->]|(EQ & Exs & EP)].
  - apply app_inv_head in EX. injection EX as EX. subst xs. destruct two; cbn [finU].
    + destruct (Hg eq_refl) as [[Tl Vl]|[N1 N2]].
      * assert (EL : last (X (eV a) (N + c)) NIL = last (X (eV b) (N + c)) NIL) by (rewrite XA, XB; apply last_app_ne; discriminate). rewrite EL in Tl, Vl. left. rewrite XB at 1 2. cbn [hd]. rewrite !HV, !HT. auto.
      * right. split; [auto|]. destruct N2 as [N2|N2]; [left|right; left; rewrite Ec; exact (HN' N2)]. rewrite XB. rewrite XA, app_length in N2. lia.
    + left. rewrite XB. cbn [hd]. rewrite HV, HT. auto.
  - subst Q xs. assert (Hn : forall x, In x (X (eV a) (N + c)) -> ~ vat v a [] x).
    { rewrite XA. intros x Hx. apply in_app_iff in Hx. destruct Hx as [Hx|[<-|[]]]; [now apply HP|auto]. }
    assert (N1 : NV g0 v c b) by (apply HN, (none_NV g0 kids St E v c a Pv Pc Ec D C Ac), Hn). destruct two; cbn [finU]; right; (split; [auto|]); left; rewrite XB; cbn [length]; lia.
Qed.
End End_.
End Uncond.
