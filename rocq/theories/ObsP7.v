(** * ObsP7: subdivisions have no self-loops; what the marks do not change. *)
From Verif Require Import Base BaseP GraphRec GraphM GraphSpec DFSM DFSSpec TestM TestSpec ObsSpec ObsP ObsP2 ObsP4 ObsP5.

Lemma sm_trans g h k : same_but_marks g h -> same_but_marks h k -> same_but_marks g k.
Proof.
  intros A B. destruct A, B. unfold is_vertex, primary in *. rewrite sm_N in *.
  constructor; try congruence; intros; repeat match goal with H : forall v, _ -> _ |- _ => specialize (H v ltac:(auto)) end; try congruence.
  repeat match goal with H : _ /\ _ |- _ => destruct H end. repeat split; congruence.
Qed.

Lemma path_same g h adj : (forall e, enbr h e = enbr g e) -> forall p u v, path h adj u p v <-> path g adj u p v.
Proof. intros H. induction p as [|e p IH]; intros u v; cbn [path]; [tauto|]. rewrite H, IH. tauto. Qed.
Lemma subdivision_same g h adj cs E : (forall e, enbr h e = enbr g e) -> subdivision h adj cs E <-> subdivision g adj cs E.
Proof.
  intros H. assert (I : forall p, internals h p = internals g p) by (intros p; unfold internals; apply map_ext; auto).
  assert (J : forall ps, flat_map (internals h) ps = flat_map (internals g) ps) by (induction ps; cbn; rewrite ?I; congruence).
  unfold subdivision. split; intros (ps & F & N & C); exists ps; rewrite J in *; (split; [|auto]);
    (eapply F2_mono; [|exact F]); cbn; intros uv p Hp; revert Hp; apply path_same; auto.
Qed.

Section Loops.
Variables (g : graph) (adj : Z -> list Z).
Hypothesis R : rep g adj.
Lemma path_heads u p v : path g adj u p v -> p <> [] -> map (enbr g) p = internals g p ++ [v].
Proof.
  intros P N. destruct (exists_last N) as (l & a & ->). rewrite map_app. unfold internals. rewrite removelast_last. cbn [map].
  now rewrite (path_last g adj _ _ _ _ P).
Qed.
Lemma subdivision_loop_free cs E : (forall u v, In (u, v) E -> In u cs /\ In v cs /\ u <> v) -> subdivision g adj cs E -> loop_free g adj.
Proof.
  intros HE (ps & F & ND & C).
  assert (K : forall w e p, In e (adj w) -> enbr g e = w -> In p ps -> In e p -> False).
  { intros w e p He L Hp Ie. destruct (F2_in_r _ _ _ F p Hp) as ((u, v) & Iuv & P). cbn in P. destruct (HE u v Iuv) as (Iu & Iv & Nuv).
    assert (Np : p <> []) by (intros ->; destruct Ie). pose proof (path_heads u p v P Np) as Q.
    apply NoDup_app_inv in ND as (_ & N2 & D).
    assert (Ip : forall x, In x (internals g p) -> In x (flat_map (internals g) ps)) by (intros x Hx; apply in_flat_map; eauto).
    assert (NDi : NoDup (internals g p)).
    { apply in_split in Hp as (q1 & q2 & ->). rewrite flat_map_app in N2. cbn [flat_map] in N2. apply NoDup_app_inv in N2 as (_ & N2 & _). now apply NoDup_app_inv in N2. }
    assert (Nd : NoDup (u :: internals g p ++ [v])).
    { constructor.
      - rewrite in_app_iff. intros [H|[H|[]]]; [|congruence]. exact (D _ Iu (Ip _ H)).
      - apply NoDup_app_intro; auto; [constructor; [intros []|constructor]|]. intros x Hx [<-|[]]. exact (D _ Iv (Ip _ Hx)). }
    rewrite <- Q in Nd. apply in_split in Ie as (l1 & l2 & ->). apply path_app in P as (w' & P1 & P2). cbn in P2. destruct P2 as [He' _].
    assert (w' = w) by (eapply (ch_disj _ _ (rep_chains _ _ R)); eauto). subst w'. rewrite map_app in Nd. cbn [map] in Nd. rewrite L in Nd.
    destruct l1 as [|b l1] using rev_ind.
    - cbn in P1. subst u. cbn [map app] in Nd. inversion Nd as [|? ? N _]. apply N. now left.
    - pose proof (path_last g adj _ _ _ _ P1) as Eb. rewrite map_app in Nd. cbn [map] in Nd. rewrite Eb, <- app_assoc in Nd. cbn [app] in Nd.
      apply NoDup_cons_iff in Nd as [_ Nd]. apply NoDup_remove_2 in Nd. apply Nd. apply in_or_app; right; now left. }
  intros w e He L. destruct (C e (ex_intro _ w He)) as (p & Hp & [Ie|Ie]); [eauto|].
  apply (K (enbr g e) (twin e) p); auto; [apply (arc_twin g adj R _ _ He)|]. rewrite (arc_tail g adj R _ _ He). auto.
Qed.
Lemma complete_loop_free n : complete_subdivision g adj n -> loop_free g adj.
Proof.
  intros (cs & _ & S). pose proof (subdivision_nodup _ _ _ _ S) as ND. destruct (complete_pattern cs ND) as (H & _).
  eapply subdivision_loop_free; [|exact S]. intros u v I. destruct (H u v I) as (? & ? & ? & _). auto.
Qed.
Lemma bipartite_loop_free m n : bipartite_subdivision g adj m n -> loop_free g adj.
Proof.
  intros (a & b & _ & _ & S). pose proof (subdivision_nodup _ _ _ _ S) as ND. destruct (bip_pattern a b ND) as (_ & H & _).
  eapply subdivision_loop_free; [|exact S]. intros u v I. destruct (H u v I) as (? & ? & ? & _). auto.
Qed.
End Loops.
