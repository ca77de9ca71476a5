(** * IsoKU: the unembedded edges to ancestors of the vertex being processed. *)
From Coq Require Import ZifyBool Permutation.
From Verif Require Import Base BaseP GraphRec GraphM GraphSpec GSimp LinkP GraphP GraphP2 GraphP3 ListM ListSpec DFSM DFSSpec DFSP TestM TestSpec TestP TestP3 EmbM EmbSpec EmbP EmbP2 FaceP GeoP EmbInv EmbStep EmbTree EmbWalk EmbOrient EmbJoin EmbDown EmbDown3 EmbFan FanP IsoM IsoKM IsoP1 IsoP2 IsoP3 IsoP4 IsoO IsoO2 IsoX IsoX2 IsoX3 IsoX4 PlV PlV3 PlI IsoKI.

Section KU.
Variables (g0 : graph) (kids : Z -> list Z).
Hypothesis St : static g0 kids.
Local Notation N := (gN g0).
Local Notation p := (viParent (gVI g0)).
Local Notation prim := (prim (gN g0)).
Local Notation anc := (ancestor (viParent (gVI g0))).
Local Notation act := (act g0).
Local Notation rpv := (rpv g0).
Local Notation least := (viLeast (gVI g0)).
Local Notation low := (viLow (gVI g0)).
Variables (a : est) (v : Z).
Local Notation s := (eV a).
Hypothesis Fo : fwok g0 a.
Hypothesis Cl : forall x, prim x -> least x < v -> least x < x -> exists f, In f (fw a (least x)) /\ nb s f = x.
Hypothesis Cw : forall d, prim d -> low d < v -> low d < d -> exists f, In f (fw a (low d)) /\ anc d (nb s f).

(** The way from z down to t leads through a separated child of z with property P. *)
Definition leg (P : Z -> Prop) (z t : Z) : Prop := t = z \/ exists c, act s c /\ p c = z /\ anc c t /\ P c.

Lemma fw_prim u f : In f (fw a u) -> prim u /\ prim (nb s f) /\ anc u (nb s f) /\ u <> nb s f.
Proof.
  intros Hf. destruct (fo_via _ _ Fo u f Hf) as (c & (P1 & P2 & P3 & P4 & P5) & _). split; [auto|]. split; [auto|]. assert (Nc : p c <> NIL) by (rewrite P2; unfold GeoP.prim, NIL in *; lia). split; [apply (anc_trans _ _ c); [|auto]; apply anc_step; rewrite ?P2; [unfold GeoP.prim, NIL in *; lia|constructor]|].
  intros Q. destruct (Hp g0 kids St c P1 Nc) as [_ K]. pose proof (anc_le _ _ St _ _ P4 P5). lia.
Qed.

Section G.
Variables (g : graph) (b : est) (stk : list Z).
Hypothesis H : rpv g b stk.
Hypothesis Ef : fw b = fw a.
Hypothesis En : nb (eV b) = nb s.
Hypothesis Ha : forall c, act (eV b) c <-> act s c.

Lemma lc_loop z : prim z -> forall l2 l1 n A0 fc, kids z = l1 ++ l2 -> (length l2 < n)%nat ->
  (fc = NIL /\ A0 = least z \/ act s fc /\ p fc = z /\ low fc = A0 /\ A0 < least z) ->
  exists A' fc', least_child_loop n g z (hd NIL l2) A0 fc = Ret (A', fc') /\ (fc' = NIL /\ A' = least z \/ act s fc' /\ p fc' = z /\ low fc' = A' /\ A' < least z) /\ A' <= A0 /\ (forall c, In c l2 -> act s c -> A' <= low c).
Proof.
  intros Pz. pose proof (rpv_N g0 _ _ _ H) as KN. induction l2 as [|c l2 IH]; intros l1 n A0 fc Ek Hn Hi; (destruct n as [|n]; [cbn [length] in Hn; lia|]); cbn [hd least_child_loop].
  - rewrite Z.eqb_refl. exists A0, fc. split; [reflexivity|]. split; [auto|]. split; [lia|]. intros c [].
  - assert (Hc : In c (kids z)) by (rewrite Ek; apply in_app_iff; right; now left). apply (st_kid _ _ St) in Hc. destruct Hc as (Pc & _ & Ec). pose proof Pc as Pc'. unfold GeoP.prim in Pc'. rewrite eqb_false_neq by (unfold NIL; lia).
    unfold gp_GetRootFromDFSChild. rewrite KN. rewrite (rp_inuse _ _ _ _ (c + N) H) by (cbn [set_vflags gN]; lia). cbn [bind]. unfold gp_GetVertexLowpoint. rewrite vi_ok by lia. cbn [bind]. rewrite (k_low _ _ (r_keeps _ _ _ _ H)). cbn [set_vflags gVI].
    rewrite (next_child (set_vflags g0 (vflags g)) g b stk kids z c l1 l2 H (st_kids _ _ St) Pz Ek). cbn [bind].
    assert (Ac : negb (isnil (adj (eV b) (c + N))) = true <-> act s c).
    { rewrite <- Ha. unfold EmbTree.act. rewrite (Z.add_comm c N). split.
      - intros Q. split; [auto|]. split; [rewrite Ec; unfold GeoP.prim, NIL in *; lia|]. intros E. rewrite E in Q. discriminate.
      - intros (_ & _ & Q). destruct (adj (eV b) (N + c)); [congruence|reflexivity]. }
    destruct (negb (isnil (adj (eV b) (c + N))) && (low c <? A0)) eqn:Eb.
    + apply andb_true_iff in Eb. destruct Eb as [B1 B2]. apply Ac in B1. destruct (IH (l1 ++ [c]) n (low c) c) as (A' & fc' & E & D1 & D2 & D3); [rewrite <- app_assoc; auto|cbn [length] in Hn; lia| |].
      { right. split; [auto|]. split; [auto|]. split; [auto|]. destruct Hi as [[_ Q]|(_ & _ & _ & Q)]; lia. }
      exists A', fc'. split; [exact E|]. split; [auto|]. split; [lia|]. intros c' [<-|Hc'] Q; [lia|auto].
    + destruct (IH (l1 ++ [c]) n A0 fc) as (A' & fc' & E & D1 & D2 & D3); [rewrite <- app_assoc; auto|cbn [length] in Hn; lia|auto|].
      exists A', fc'. split; [exact E|]. split; [auto|]. split; [lia|]. intros c' [<-|Hc'] Q; [|auto]. apply Ac in Q. rewrite Q in Eb. cbn [andb] in Eb. lia.
Qed.
Lemma find_anc_ok z : prim z -> v < z -> fpo g0 kids a v (fpc b) -> futp g0 a v z ->
  exists f u, _FindUnembeddedEdgeToAncestor g z = Ret (Some (u, nb s f)) /\ In f (fw a u) /\ u < v /\ leg (fun c => low c < v) z (nb s f).
Proof.
  intros Pz Lz Fp Fz. pose proof (rpv_N g0 _ _ _ H) as KN. destruct (Fp z Pz) as (l1 & l2 & E1 & E2 & E3). pose proof Pz as Pz'. unfold GeoP.prim in Pz'.
  unfold _FindUnembeddedEdgeToAncestor, gp_GetVertexLeastAncestor, gp_GetVertexFuturePertinentChild. rewrite !vi_ok by lia. cbn [bind]. rewrite (k_least _ _ (r_keeps _ _ _ _ H)), (r_fpc _ _ _ _ H), E2. cbn [set_vflags gVI].
  pose proof (kids_len g0 kids St z) as Lk. rewrite E1, app_length in Lk.
  destruct (lc_loop z Pz l2 l1 (S (Z.to_nat (gN g))) (least z) NIL E1 ltac:(lia) (or_introl (conj eq_refl eq_refl))) as (A' & fc & E & D1 & D2 & D3). rewrite E. cbn [bind].
  assert (LA : A' < v).
  { destruct Fz as [Q|(c & C1 & C2 & C3)]; [lia|]. assert (Hc : In c (kids z)) by (apply (st_kid _ _ St); destruct C1 as (Q & _); auto). rewrite E1 in Hc. apply in_app_iff in Hc. destruct Hc as [Hc|Hc].
    - destruct (E3 c Hc); [contradiction|lia].
    - specialize (D3 c Hc C1). lia. }
  destruct D1 as [[-> ->]|(C1 & C2 & C3 & C4)].
  - rewrite Z.eqb_refl. destruct (Cl z Pz LA ltac:(lia)) as (f & F1 & F2). exists f, (least z). rewrite F2. split; [reflexivity|]. split; [auto|]. split; [auto|]. now left.
  - rewrite eqb_false_neq by lia. destruct C1 as (P1 & P2 & P3). destruct (Hp g0 kids St fc P1 P2) as [Q1 Q2]. destruct (Cw fc P1 ltac:(lia) ltac:(lia)) as (f0 & F1 & F2). rewrite C3 in F1. destruct (fw_prim A' f0 F1) as (U1 & U2 & U3 & U4).
    destruct (find_subtree_ok g0 kids St g b stk A' fc H U1 P1) as (f & G1 & G2 & G3).
    + apply (anc_total _ _ St _ _ (nb s f0)); auto. lia.
    + rewrite Ef, En. intros f Hf. destruct (fw_prim A' f Hf) as (_ & Q3 & Q4 & _). auto.
    + rewrite Ef, En. eauto.
    + rewrite Ef, En in *. rewrite G1. cbn [bind]. exists f, A'. split; [reflexivity|]. split; [auto|]. split; [auto|]. right. exists fc. split; [split; auto|]. split; [auto|]. split; [auto|]. lia.
Qed.
End G.
End KU.
