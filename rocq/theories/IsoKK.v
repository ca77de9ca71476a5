(** * IsoKK: assembling undirected paths into subdivisions of K3,3 and K5. *)
From Coq Require Import ZifyBool Permutation.
From Verif Require Import Base BaseP GraphRec GraphM GraphSpec LinkP GraphP GraphP2 GraphP3 ListM DFSM DFSSpec DFSP TestSpec ObsSpec IsoK.

Section Con.
Variables (src dst : Z -> Z) (ok : Z -> Prop).
Hypothesis st : forall e, src (twin e) = dst e.
Hypothesis dt : forall e, dst (twin e) = src e.
Hypothesis okt : forall e, ok e -> ok (twin e).
Local Notation run := (run src dst ok).
Local Notation pth := (pth src dst ok).

(** A path between u and w, its inner vertices being those of [I], containing the edges of [l]. *)
Definition con (u : Z) (I : list Z) (w : Z) (l : list Z) : Prop :=
  exists l' I', run u I' w l' /\ Permutation I I' /\ forall e, In e l -> In e l' \/ In (twin e) l'.
Lemma con_run u I w l : run u I w l -> con u I w l.
Proof. intros H. exists l, I. auto. Qed.
Lemma con_perm u I J w l m : Permutation J I -> incl m l -> con u I w l -> con u J w m.
Proof. intros P Q (l' & I' & A & B & C). exists l', I'. split; [auto|]. split; [now transitivity I|]. auto. Qed.
Lemma con_sym u I w l : con u I w l -> con w I u l.
Proof.
  intros (l' & I' & A & B & C). exists (map twin (rev l')), (rev I'). split; [now apply run_rev|]. split; [transitivity I'; [auto|apply Permutation_rev]|].
  intros e He. destruct (C e He) as [Q|Q]; [right|left]; [|rewrite <- (twin_invol e)]; apply in_map; now apply -> in_rev.
Qed.
Lemma con_app u I m J w l l2 : con u I m l -> con m J w l2 -> con u (m :: I ++ J) w (l ++ l2).
Proof.
  intros (k & I' & A & B & C) (k2 & J' & A2 & B2 & C2). exists (k ++ k2), (I' ++ m :: J'). split; [now apply run_app|]. split.
  - transitivity (m :: I' ++ J'); [constructor; now apply Permutation_app|apply Permutation_middle].
  - intros e He. rewrite !in_app_iff. apply in_app_iff in He. destruct He as [He|He]; [destruct (C e He)|destruct (C2 e He)]; auto.
Qed.
Lemma con_edge e : ok e -> con (src e) [] (dst e) [e].
Proof. intros H. apply con_run. now apply run_one. Qed.
Lemma con_ne u I w l : con u I w l -> l <> [] -> exists e, ok e.
Proof. intros (l' & I' & [A _] & _ & C) N. destruct l as [|e l]; [congruence|]. destruct (C e (or_introl eq_refl)) as [Q|Q]; eexists; eapply pth_ok; eauto. Qed.

(** A path that may be empty: [K] are its vertices other than [w]. *)
Definition con0 (u : Z) (K : list Z) (w : Z) (l : list Z) : Prop := u = w /\ K = [] /\ l = [] \/ exists I, con u I w l /\ Permutation K (u :: I).
(** ... followed by a proper path. *)
Lemma con0_app u K m J w l l2 : con0 u K m l -> con m J w l2 -> exists I, con u I w (l ++ l2) /\ Permutation (u :: I) (K ++ m :: J).
Proof.
  intros [(-> & -> & ->)|(I & A & B)] C.
  - exists J. split; [exact C|reflexivity].
  - exists (m :: I ++ J). split; [now apply con_app|]. transitivity ((u :: I) ++ m :: J); [cbn [app]; constructor; apply Permutation_middle|]. apply Permutation_app_tail. now symmetry.
Qed.

Variables (h : graph) (A : Z -> list Z).
Hypothesis Hin : forall e, ok e -> In e (A (src e)).
Hypothesis Hnb : forall e, ok e -> enbr h e = dst e.
Lemma sub_con cs E (PI : list (list Z * list Z)) :
  Forall2 (fun uv pI => con (fst uv) (snd pI) (snd uv) (fst pI)) E PI -> NoDup (cs ++ flat_map snd PI) ->
  (forall e, is_arc A e -> In e (flat_map fst PI) \/ In (twin e) (flat_map fst PI)) -> subdivision h A cs E.
Proof.
  intros F Nd Cv. assert (exists PI', Forall2 (fun uv pI => run (fst uv) (snd pI) (snd uv) (fst pI)) E PI' /\ Permutation (flat_map snd PI) (flat_map snd PI') /\
    (forall e, In e (flat_map fst PI) -> exists pI, In pI PI' /\ (In e (fst pI) \/ In (twin e) (fst pI)))) as (PI' & F' & Pm & Cv').
  { clear - F. induction F as [|uv pI E PI (l & I & R1 & R2 & R3) F (PI' & F' & Pm & Cv)]; [exists []; split; [constructor|split; [reflexivity|intros e []]]|].
    exists ((l, I) :: PI'). split; [constructor; auto|]. split; [cbn [flat_map snd]; now apply Permutation_app|]. intros e He. cbn [flat_map] in He. apply in_app_iff in He. destruct He as [He|He].
    - exists (l, I). split; [now left|]. auto.
    - destruct (Cv e He) as (pJ & Q1 & Q2). exists pJ. split; [now right|auto]. }
  apply (sub_of src dst ok h A Hin Hnb cs E PI' F').
  - apply (Permutation_NoDup (l := cs ++ flat_map snd PI)); [now apply Permutation_app_head|exact Nd].
  - intros e He. destruct (Cv e He) as [Q|Q]; [now apply Cv'|]. destruct (Cv' _ Q) as (pI & Q1 & Q2). exists pI. split; [auto|]. rewrite twin_invol in Q2. tauto.
Qed.
Lemma k33_of a1 a2 a3 b1 b2 b3 I11 I12 I13 I21 I22 I23 I31 I32 I33 l11 l12 l13 l21 l22 l23 l31 l32 l33 :
  con a1 I11 b1 l11 -> con a1 I12 b2 l12 -> con a1 I13 b3 l13 -> con a2 I21 b1 l21 -> con a2 I22 b2 l22 -> con a2 I23 b3 l23 -> con a3 I31 b1 l31 -> con a3 I32 b2 l32 -> con a3 I33 b3 l33 ->
  NoDup ([a1; a2; a3; b1; b2; b3] ++ I11 ++ I12 ++ I13 ++ I21 ++ I22 ++ I23 ++ I31 ++ I32 ++ I33) ->
  (forall e, is_arc A e -> In e (l11 ++ l12 ++ l13 ++ l21 ++ l22 ++ l23 ++ l31 ++ l32 ++ l33) \/ In (twin e) (l11 ++ l12 ++ l13 ++ l21 ++ l22 ++ l23 ++ l31 ++ l32 ++ l33)) ->
  bipartite_subdivision h A 3 3.
Proof.
  intros. exists [a1; a2; a3], [b1; b2; b3]. split; [reflexivity|]. split; [reflexivity|].
  apply (sub_con _ _ [(l11, I11); (l12, I12); (l13, I13); (l21, I21); (l22, I22); (l23, I23); (l31, I31); (l32, I32); (l33, I33)]).
  - cbn [list_prod map app]. repeat (constructor; [assumption|]). constructor.
  - cbn [flat_map snd app]. rewrite app_nil_r. assumption.
  - cbn [flat_map fst app]. rewrite app_nil_r. assumption.
Qed.
Lemma k5_of a b c d e Iab Iac Iad Iae Ibc Ibd Ibe Icd Ice Ide lab lac lad lae lbc lbd lbe lcd lce lde :
  con a Iab b lab -> con a Iac c lac -> con a Iad d lad -> con a Iae e lae -> con b Ibc c lbc -> con b Ibd d lbd -> con b Ibe e lbe -> con c Icd d lcd -> con c Ice e lce -> con d Ide e lde ->
  NoDup ([a; b; c; d; e] ++ Iab ++ Iac ++ Iad ++ Iae ++ Ibc ++ Ibd ++ Ibe ++ Icd ++ Ice ++ Ide) ->
  (forall x, is_arc A x -> In x (lab ++ lac ++ lad ++ lae ++ lbc ++ lbd ++ lbe ++ lcd ++ lce ++ lde) \/ In (twin x) (lab ++ lac ++ lad ++ lae ++ lbc ++ lbd ++ lbe ++ lcd ++ lce ++ lde)) ->
  complete_subdivision h A 5.
Proof.
  intros. exists [a; b; c; d; e]. split; [reflexivity|].
  apply (sub_con _ _ [(lab, Iab); (lac, Iac); (lad, Iad); (lae, Iae); (lbc, Ibc); (lbd, Ibd); (lbe, Ibe); (lcd, Icd); (lce, Ice); (lde, Ide)]).
  - cbn [all_pairs map app]. repeat (constructor; [assumption|]). constructor.
  - cbn [flat_map snd app]. rewrite app_nil_r. assumption.
  - cbn [flat_map fst app]. rewrite app_nil_r. assumption.
Qed.
End Con.
