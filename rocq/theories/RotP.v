(** * RotP: what a rotation system is depends only on the order of the neighbours, not on the numbers
    of the edges. *)
From Coq Require Import ZifyBool Permutation.
From Verif Require Import Base BaseP GraphRec GraphM GraphSpec GraphP GraphP2 GraphP3 DFSSpec TestSpec TestP EmbedSpec ObsSpec PlanSpec OrbitP FaceP PlanDec PlanE TestP5 EndSpec.

Section Rot.
Variables (k m : graph) (B C : Z -> list Z).
Hypotheses (Rk : rep k B) (Rm : rep m C).
Hypothesis Sm : forall v e f, In e (C v) -> In f (C v) -> enbr m e = enbr m f -> e = f.
Hypothesis HN : gN m = gN k.
Hypothesis HL : forall v, map (enbr m) (C v) = map (enbr k) (B v).

(** The arc of [m] with the ends of an arc of [k]. *)
Definition phi (e : Z) : Z := match find (fun f => enbr m f =? enbr k e) (C (enbr k (twin e))) with Some f => f | None => NIL end.
Lemma phi_at v e f : In e (B v) -> In f (C v) -> enbr m f = enbr k e -> phi e = f.
Proof.
  intros He Hf E. destruct (rep_twins _ _ Rk v e He) as [Es _]. unfold phi. rewrite Es.
  destruct (find (fun f0 => enbr m f0 =? enbr k e) (C v)) as [f'|] eqn:F.
  - apply find_some in F. destruct F as [F1 F2]. apply (Sm v); auto. lia.
  - apply find_none with (x := f) in F; [lia|auto].
Qed.
Lemma phi_map v : C v = map phi (B v).
Proof.
  assert (K : forall l l', (forall e, In e l -> In e (B v)) -> (forall f, In f l' -> In f (C v)) -> map (enbr m) l' = map (enbr k) l -> l' = map phi l).
  { induction l as [|e l IH]; intros [|f l'] H1 H2 E; cbn [map] in *; try discriminate; [auto|]. injection E as E1 E2. f_equal; [symmetry; apply (phi_at v); [apply H1; now left|apply H2; now left|exact E1]|].
    apply IH; auto; intros x Hx; [apply H1|apply H2]; now right. }
  apply K; auto.
Qed.
Lemma phi_in v e : In e (B v) -> In (phi e) (C v).
Proof. intros H. rewrite phi_map. now apply in_map. Qed.
Lemma phi_nbr v e : In e (B v) -> enbr m (phi e) = enbr k e.
Proof.
  intros He. pose proof (HL v) as E. assert (I : In (enbr k e) (map (enbr m) (C v))) by (rewrite E; now apply in_map).
  apply in_map_iff in I. destruct I as (f & Ef & Hf). rewrite (phi_at v e f He Hf Ef). exact Ef.
Qed.
Lemma phi_twin v e : In e (B v) -> twin (phi e) = phi (twin e).
Proof.
  intros He. destruct (rep_twins _ _ Rk v e He) as [Es Ht]. destruct (rep_twins _ _ Rm v (phi e) (phi_in v e He)) as [Es' Ht'].
  rewrite (phi_nbr v e He) in Ht'. symmetry. apply (phi_at (enbr k e)); [exact Ht|exact Ht'|congruence].
Qed.
Lemma phi_inj v w e f : In e (B v) -> In f (B w) -> phi e = phi f -> e = f.
Proof.
  intros He Hf E. assert (Ev : v = w) by (apply (ch_disj _ _ (rep_chains _ _ Rm) _ _ (phi e)); [now apply phi_in|rewrite E; now apply phi_in]). subst w.
  pose proof (ch_nodup _ _ (rep_chains _ _ Rm) v) as Nd. rewrite phi_map in Nd. revert E. apply (NoDup_map_inj phi (B v)); auto.
Qed.
Lemma phi_sur v f : In f (C v) -> exists e, In e (B v) /\ phi e = f.
Proof. rewrite phi_map. intros H. apply in_map_iff in H. destruct H as (e & E & H). eauto. Qed.
Lemma phi_arc f : is_arc C f <-> exists e, is_arc B e /\ phi e = f.
Proof.
  split.
  - intros (v & Hv). destruct (phi_sur v f Hv) as (e & He & E). exists e. split; [now exists v|auto].
  - intros (e & (v & Hv) & <-). exists v. now apply phi_in.
Qed.
Lemma phi_cnext l e : NoDup (map phi l) -> In e l -> cnext (map phi l) (phi e) = phi (cnext l e).
Proof.
  intros Nd He. assert (Nl : NoDup l) by (clear He; induction l as [|x l IH]; [constructor|]; cbn [map] in Nd; apply NoDup_cons_iff in Nd; constructor; [intros Q; apply (proj1 Nd), in_map, Q|apply IH, Nd]).
  apply in_split in He. destruct He as (l1 & l2 & ->). rewrite map_app in *. cbn [map] in *. rewrite !cnext_split by auto. destruct l2; cbn [map hd]; [|auto]. destruct l1; reflexivity.
Qed.
Lemma phi_face v e : In e (B v) -> face_step m C (phi e) = phi (face_step k B e).
Proof.
  intros He. unfold face_step. rewrite (phi_nbr v e He), (phi_twin v e He), phi_map. destruct (rep_twins _ _ Rk v e He) as [_ Ht].
  apply phi_cnext; [|exact Ht]. rewrite <- phi_map. apply (ch_nodup _ _ (rep_chains _ _ Rm)).
Qed.
Lemma step_arc e : is_arc B e -> is_arc B (face_step k B e).
Proof. intros (v & Hv). destruct (rep_twins _ _ Rk _ _ Hv) as [_ T]. exists (enbr k e). unfold face_step. apply cnext_in; [apply (ch_nodup _ _ (rep_chains _ _ Rk))|exact T]. Qed.
Lemma phi_iter n e : is_arc B e -> Nat.iter n (face_step m C) (phi e) = phi (Nat.iter n (face_step k B) e) /\ is_arc B (Nat.iter n (face_step k B) e).
Proof. intros H. induction n as [|n [I1 I2]]; [auto|]. rewrite !iter_S, I1. split; [|now apply step_arc]. destruct I2 as (v & Hv). now apply (phi_face v). Qed.
Lemma phi_same a b : is_arc B a -> same_face k B a b -> same_face m C (phi a) (phi b).
Proof. intros H (n & <-). exists n. now apply phi_iter. Qed.
Lemma phi_same' a b : is_arc B a -> is_arc B b -> same_face m C (phi a) (phi b) -> same_face k B a b.
Proof.
  intros H (w & Hb) (n & E). exists n. destruct (phi_iter n a H) as [I1 (v & I2)]. rewrite I1 in E. now apply (phi_inj v w).
Qed.
Lemma rot_conn a b : connected k B a b -> connected m C a b.
Proof. induction 1 as [|v e _ IH He]; [constructor|]. rewrite <- (phi_nbr v e He). apply conn_step with v; [exact IH|now apply phi_in]. Qed.
Lemma rot_conn' a b : connected m C a b -> connected k B a b.
Proof. induction 1 as [|v f _ IH Hf]; [constructor|]. destruct (phi_sur v f Hf) as (e & He & <-). rewrite (phi_nbr v e He). now apply conn_step with v. Qed.
Lemma rot_M : gM m = gM k.
Proof.
  pose proof (all_arcs_length k B Rk) as H1. pose proof (all_arcs_length m C Rm) as H2.
  assert (E : length (all_arcs m C) = length (all_arcs k B)); [|lia].
  unfold all_arcs. rewrite HN. clear - HL. induction (zrange 1 (Z.to_nat (2 * gN k))) as [|v l IH]; cbn [flat_map]; [auto|]. rewrite !app_length, IH. f_equal. rewrite <- (map_length (enbr m)), HL. apply map_length.
Qed.
Lemma rot_euler : euler k B -> euler m C.
Proof.
  intros (F & Cn & HF & HC & E). exists F, Cn. split; [|split].
  - destruct HF as (rs & Nd & H1 & H2 & H3 & ->). exists (map phi rs). split; [|split; [|split; [|split; [|now rewrite map_length]]]].
    + clear H2 H3 E. induction Nd as [|r rs Nr Nd IH]; cbn [map]; constructor; [|apply IH; intros; apply H1; now right].
      intros Q. apply in_map_iff in Q. destruct Q as (q & Eq & Iq). destruct (H1 q (or_intror Iq)) as (v & Hv), (H1 r (or_introl eq_refl)) as (w & Hw). rewrite (phi_inj v w q r Hv Hw Eq) in Iq. contradiction.
    + intros r Hr. apply in_map_iff in Hr. destruct Hr as (q & <- & Hq). apply phi_arc. eauto.
    + intros r r' Hr Hr' S. apply in_map_iff in Hr, Hr'. destruct Hr as (q & <- & Hq), Hr' as (q' & <- & Hq'). f_equal. apply H2; auto. apply phi_same'; auto.
    + intros x Hx. apply phi_arc in Hx. destruct Hx as (e & He & <-). destruct (H3 e He) as (r & Hr & S). exists (phi r). split; [now apply in_map|]. apply phi_same; auto.
  - eapply num_classes_mono; [| |exact HC]; [intros x; unfold primary; now rewrite HN|]. intros x y; split; [apply rot_conn|apply rot_conn'].
  - rewrite rot_M, HN, <- E. do 2 f_equal. unfold num_isolated. rewrite HN. f_equal. clear - HL. f_equal.
    induction (map Z.of_nat (seq 1 (Z.to_nat (gN k)))) as [|v l IH]; cbn [filter]; [auto|]. rewrite IH. pose proof (HL v) as E. destruct (C v), (B v); try discriminate; reflexivity.
Qed.
Lemma rot_outer : primary_edges k B -> outer_rotations k B -> outer_rotations m C.
Proof.
  intros Pk H r Hr. destruct (H r) as (a & Ha); [unfold primary in *; now rewrite <- HN|].
  assert (Dr : B r = [] \/ B r <> []) by (destruct (B r); [now left|now right]). destruct Dr as [Er|Er].
  - exists NIL. intros v Cv Nv. apply rot_conn' in Cv. assert (Ev : v = r).
    { induction Cv as [|w e Cw IH He]; [auto|]. exfalso. assert (Qw : w = r).
      { apply IH. rewrite phi_map. destruct (B w); [destruct He|discriminate]. }
      subst w. rewrite Er in He. destruct He. }
    elim Nv. now rewrite phi_map, Ev, Er.
  - destruct (Ha r (conn_refl _ _ _) Er) as (b0 & (n0 & E0) & I0). exists (phi b0). intros v Cv Nv.
    assert (Nb : B v <> []) by (intros Q; apply Nv; rewrite phi_map, Q; reflexivity).
    destruct (Ha v (rot_conn' r v Cv) Nb) as (b & (n & Eb) & Ib). exists (phi b). split; [|now apply phi_in]. apply phi_same; [now exists r|].
    destruct (Nat.le_ge_cases n0 n) as [L|L].
    + exists (n - n0)%nat. rewrite <- Eb, <- E0, <- iter_add. f_equal. lia.
    + set (vs := map Z.of_nat (seq 1 (Z.to_nat (gN k)))). set (arcs := concat (map B vs)). assert (Bp : forall v, Permutation (B v) (B v)) by (intros; apply Permutation_refl).
      assert (Ia : forall d, In d arcs <-> is_arc B d) by (intros d; apply (in_arcs k B B Pk Bp)).
      destruct (orbit_sym (face_step k B) arcs) with (a := b) (b := b0) (k := (n0 - n)%nat) as [j Ej].
      * intros d. rewrite !Ia. apply (PlanE.step_arc k B B Rk Bp).
      * intros d d'. rewrite !Ia. apply (step_inj k B B Rk Bp).
      * apply Ia. now exists v.
      * rewrite <- Eb, <- E0, <- iter_add. f_equal. lia.
      * now exists j.
Qed.
Lemma rot_path p : forall u v, path k B u p v -> path m C u (map phi p) v /\ internals m (map phi p) = internals k p.
Proof.
  induction p as [|e p IH]; intros u v; cbn [path map]; [auto|]. intros [He Hp]. destruct (IH _ _ Hp) as [I1 I2].
  rewrite (phi_nbr u e He). split; [split; [now apply phi_in|exact I1]|].
  destruct p as [|e' p]; [reflexivity|]. unfold internals in *. cbn [removelast map] in *. rewrite (phi_nbr u e He). f_equal. exact I2.
Qed.
Lemma rot_subdivision cs E : subdivision k B cs E -> subdivision m C cs E.
Proof.
  intros (paths & F & Nd & Cv). exists (map (map phi) paths). split; [|split].
  - clear - F Rk Sm HL. induction F as [|uv p E' ps H F IH]; cbn [map]; constructor; [exact (proj1 (rot_path p _ _ H))|auto].
  - replace (flat_map (internals m) (map (map phi) paths)) with (flat_map (internals k) paths); [exact Nd|].
    clear - F Rk Sm HL. induction F as [|uv p E' ps H F IH]; cbn [map flat_map]; [auto|]. rewrite (proj2 (rot_path p _ _ H)), IH. reflexivity.
  - intros f Hf. apply phi_arc in Hf. destruct Hf as (e & (v & He) & <-). destruct (Cv e (ex_intro _ v He)) as (p & Ip & [H|H]); exists (map phi p); (split; [now apply in_map|]); [left; now apply in_map|right].
    rewrite (phi_twin v e He). now apply in_map.
Qed.
Lemma rot_complete n : complete_subdivision k B n -> complete_subdivision m C n.
Proof. intros (cs & L & S). exists cs. split; [exact L|now apply rot_subdivision]. Qed.
Lemma rot_bipartite n n' : bipartite_subdivision k B n n' -> bipartite_subdivision m C n n'.
Proof. intros (a & b & L & L' & S). exists a, b. split; [exact L|]. split; [exact L'|now apply rot_subdivision]. Qed.
End Rot.
