(** * ObsP6: the test for subdivisions of K2,3 and the outerplanarity obstruction check. *)
From Coq Require Import ZifyBool Permutation.
From Verif Require Import Base BaseP GraphRec GraphM GraphSpec GSimp LinkP GraphP GraphP2 GraphP3 GraphP5
  DFSM DFSSpec DFSP DFSP2 RandP2 TestM TestSpec OrbitP TestP TestP2 TestP3 TestP4 ObsSpec ObsP ObsP2 ObsP3 ObsP4 ObsP5.

Section Theta.
Variables (g : graph) (adj : Z -> list Z).
Hypothesis R : rep g adj.
Notation hv := (enbr g).
Notation deg2 := (deg2 adj).
Notation thr := (thr g adj).
Notation nxt := (nxt g adj).
Notation proper := (proper g adj).
Notation internals := (internals g).

(** ** Pieces of threads *)
Definition inner (l : list Z) : Prop := forall l1 a b l2, l = l1 ++ a :: b :: l2 -> deg2 (hv a) /\ b = nxt a.
Lemma inner_cons a b l : inner (a :: b :: l) <-> deg2 (hv a) /\ b = nxt a /\ inner (b :: l).
Proof.
  split.
  - intros H. destruct (H [] a b l eq_refl) as [A B]. split; auto. split; auto.
    intros l1 x y l2 E. apply (H (a :: l1) x y l2). rewrite E. reflexivity.
  - intros (A & B & C) [|z l1] x y l2 E; [injection E as -> -> _; auto|injection E as _ E; apply (C l1 x y l2 E)].
Qed.
Lemma inner_app l1 x y l2 : inner (l1 ++ [x]) -> inner (y :: l2) -> deg2 (hv x) -> y = nxt x -> inner (l1 ++ x :: y :: l2).
Proof.
  induction l1 as [|a l1 IH]; intros H1 H2 D N; cbn [app] in *; [apply inner_cons; auto|].
  destruct l1 as [|b l1]; cbn [app] in *; apply inner_cons in H1 as (A & B & C); apply inner_cons; auto.
Qed.
Lemma inner_rev u l v : path g adj u l v -> inner l -> inner (rev (map twin l)).
Proof.
  intros P A l1 a b l2 E.
  assert (Q : l = rev (map twin l2) ++ twin b :: twin a :: rev (map twin l1)).
  { rewrite <- (rev_map_twin l), E. rewrite map_app, rev_app_distr. cbn [map rev]. rewrite <- !app_assoc. reflexivity. }
  destruct (A _ _ _ _ Q) as [D N]. rewrite Q in P. destruct (path_mid g adj _ _ _ _ _ _ P) as (B1 & w & B2).
  pose proof (arc_tail g adj R _ _ B1) as T. rewrite twin_invol in T. rewrite T. split; auto.
  pose proof (nxt_back g adj R _ _ B2 D) as K. rewrite <- N, !twin_invol in K. auto.
Qed.
Lemma thr_inner l1 x : inner (l1 ++ [x]) -> ~ deg2 (hv x) -> thr (l1 ++ [x]).
Proof.
  intros I D. split; [destruct l1; discriminate|]. split; [exact I|]. intros m a E. apply app_inj_tail in E as [_ ->]. auto.
Qed.
Lemma internals_rev u l v : path g adj u l v -> internals (rev (map twin l)) = rev (internals l).
Proof.
  revert u. induction l as [|a l IH]; intros u; [reflexivity|]. intros [H P]. cbn [map rev]. unfold ObsSpec.internals at 1. rewrite removelast_last.
  destruct l as [|b l]; [reflexivity|].
  change (internals (a :: b :: l)) with (hv a :: internals (b :: l)). cbn [rev]. rewrite <- (IH _ P).
  cbn [map rev]. unfold ObsSpec.internals. rewrite removelast_last, map_app. cbn [map]. do 2 f_equal. apply (arc_tail g adj R). apply P.
Qed.
Lemma internals_meet u p v u' p' v' x : proper u p v -> proper u' p' v' -> In x (internals p) -> In x (internals p') ->
  p = p' \/ (u = v' /\ v = u').
Proof.
  intros H H' I I'. apply internal_split in I as (l1 & a & b & l2 & E1 & <-). apply internal_split in I' as (m1 & a' & b' & m2 & E2 & Eh).
  pose proof (proj1 H) as P. rewrite E1 in P. apply path_mid in P as (B1 & w & B2).
  pose proof (proj1 H') as P'. rewrite E2 in P'. apply path_mid in P' as (B1' & w' & B2').
  pose proof (proj1 (proj2 H)) as (_ & A & _). destruct (A _ _ _ _ E1) as [D Eb].
  destruct (nxt_ok g adj R _ _ B2 D) as (_ & _ & X).
  pose proof (arc_twin g adj R _ _ B2') as T'. rewrite Eh in T'. destruct (X _ T') as [Q|Q].
  - assert (a = a') by (rewrite <- (twin_invol a), <- Q; apply twin_invol). subst a'. left.
    eapply (proper_same g adj R); [exact H|exact H'| |]; [rewrite E1|rewrite E2]; apply in_or_app; right; now left.
  - right. destruct (proper_opposite g adj R u' p' v' u p v a' H' H) as (_ & ? & ?); auto.
    + rewrite E2. apply in_or_app; right; now left.
    + rewrite Q, <- Eb, E1. apply in_or_app; right; right; now left.
Qed.

(** ** Three threads between two vertices of degree three *)
Lemma theta_sound v0 v1 e1 e2 e3 l1 l2 l3 : v0 <> v1 -> adj v0 = [e1; e2; e3] -> length (adj v1) = 3%nat ->
  (forall v, v <> v0 -> v <> v1 -> adj v = [] \/ deg2 v) ->
  proper v0 (e1 :: l1) v1 -> proper v0 (e2 :: l2) v1 -> proper v0 (e3 :: l3) v1 ->
  l1 <> [] -> l2 <> [] -> l3 <> [] ->
  (forall x, deg2 x -> In x (internals (e1 :: l1)) \/ In x (internals (e2 :: l2)) \/ In x (internals (e3 :: l3))) ->
  bipartite_subdivision g adj 2 3.
Proof.
  intros Nv E0 L1' Oth T1 T2 T3 N1 N2 N3 Cv.
  exists [v0; v1], [hv e1; hv e2; hv e3]. split; auto. split; auto.
  assert (Ne : NoDup [e1; e2; e3]) by (rewrite <- E0; apply (adj_nodup g adj R)).
  assert (e1 <> e2 /\ e1 <> e3 /\ e2 <> e3) as (D12 & D13 & D23).
  { apply NoDup_cons_iff in Ne as [A Ne]. apply NoDup_cons_iff in Ne as [B _]. cbn in A, B. intuition congruence. }
  exists [[e1]; [e2]; [e3]; rev (map twin l1); rev (map twin l2); rev (map twin l3)].
  assert (Pt : forall e l, proper v0 (e :: l) v1 -> path g adj v0 [e] (hv e) /\ path g adj v1 (rev (map twin l)) (hv e)).
  { intros e l ([H P] & _). split; [cbn; auto|]. now apply (path_rev g adj R). }
  assert (Ie : forall e l, l <> [] -> internals (e :: l) = hv e :: internals l) by (intros e [|b l] N; [congruence|reflexivity]).
  assert (Ir : forall e l, proper v0 (e :: l) v1 -> internals (rev (map twin l)) = rev (internals l)) by (intros e l ([H P] & _); eapply internals_rev; eauto).
  assert (NDp : forall e l, proper v0 (e :: l) v1 -> NoDup (internals (e :: l))) by (intros e l H; apply (proper_internals_nodup g adj R v0 _ v1); auto).
  assert (Dj : forall e l e' l', proper v0 (e :: l) v1 -> proper v0 (e' :: l') v1 -> e <> e' -> forall x, In x (internals (e :: l)) -> In x (internals (e' :: l')) -> False).
  { intros e l e' l' H H' N x I I'. destruct (internals_meet _ _ _ _ _ _ x H H' I I') as [Q|[Q _]]; congruence. }
  assert (NDv : ~ deg2 v0 /\ ~ deg2 v1) by (unfold ObsP.deg2; rewrite E0, L1'; split; discriminate).
  split; [|split].
  - cbn [list_prod map app]. repeat constructor; cbn [fst snd]; try (now apply (Pt _ _ T1)); try (now apply (Pt _ _ T2)); try (now apply (Pt _ _ T3)).
    all: rewrite E0; cbn; auto.
  - assert (Pm : Permutation (([v0; v1] ++ [hv e1; hv e2; hv e3]) ++ flat_map internals [[e1]; [e2]; [e3]; rev (map twin l1); rev (map twin l2); rev (map twin l3)])
        ([v0; v1] ++ internals (e1 :: l1) ++ internals (e2 :: l2) ++ internals (e3 :: l3))).
    { cbn [flat_map]. change (internals [e1]) with (@nil Z). change (internals [e2]) with (@nil Z). change (internals [e3]) with (@nil Z). cbn [app].
      rewrite (Ir _ _ T1), (Ir _ _ T2), (Ir _ _ T3), !Ie by auto. rewrite app_nil_r. cbn [app]. do 2 apply perm_skip. apply perm_skip.
      rewrite (Permutation_rev (internals l1)) at 2. rewrite (Permutation_rev (internals l2)) at 2. rewrite (Permutation_rev (internals l3)) at 2.
      apply (Permutation_cons_app (rev (internals l1))).
      rewrite app_assoc. change (Permutation (hv e3 :: (rev (internals l1) ++ rev (internals l2) ++ rev (internals l3))) (rev (internals l1) ++ rev (internals l2) ++ hv e3 :: rev (internals l3))) || idtac.
      rewrite <- app_assoc. rewrite (app_assoc (rev (internals l1))). rewrite (app_assoc (rev (internals l1)) (rev (internals l2)) (hv e3 :: _)).
      apply Permutation_middle. }
    apply (Permutation_NoDup (Permutation_sym Pm)). apply NoDup_app_intro.
    + constructor; [intros [Q|[]]; congruence|constructor; [intros []|constructor]].
    + apply NoDup_app_intro; [auto|apply NoDup_app_intro; auto; eauto|]. intros x I J. apply in_app_iff in J as [J|J]; eauto.
    + intros x I J. assert (D : deg2 x).
      { apply in_app_iff in J as [J|J]; [eapply internal_deg2; [exact T1|auto]|]. apply in_app_iff in J as [J|J]; [eapply internal_deg2; [exact T2|auto]|eapply internal_deg2; [exact T3|auto]]. }
      destruct I as [<-|[<-|[]]]; tauto.
  - intros e (w & Hw).
    assert (Cl : forall e' l', ((e' = e1 /\ l' = l1) \/ (e' = e2 /\ l' = l2) \/ (e' = e3 /\ l' = l3)) -> forall x, In x (e' :: l') ->
       exists p, In p [[e1]; [e2]; [e3]; rev (map twin l1); rev (map twin l2); rev (map twin l3)] /\ (In x p \/ In (twin x) p)).
    { intros e' l' K x [<-|Hx].
      - exists [e']. split; [|left; now left]. cbn. destruct K as [[-> _]|[[-> _]|[-> _]]]; auto.
      - exists (rev (map twin l')). split; [|right; apply -> in_rev; now apply in_map]. cbn. destruct K as [[_ ->]|[[_ ->]|[_ ->]]]; auto 8. }
    assert (Sw : forall x, (exists p, In p [[e1]; [e2]; [e3]; rev (map twin l1); rev (map twin l2); rev (map twin l3)] /\ (In x p \/ In (twin x) p)) ->
       exists p, In p [[e1]; [e2]; [e3]; rev (map twin l1); rev (map twin l2); rev (map twin l3)] /\ (In (twin x) p \/ In (twin (twin x)) p)).
    { intros x (p & Ip & H). exists p. split; auto. rewrite twin_invol. tauto. }
    destruct (Z.eq_dec w v0) as [->|N0]; [|destruct (Z.eq_dec w v1) as [->|Nw]].
    + rewrite E0 in Hw. destruct Hw as [<-|[<-|[<-|[]]]]; [eapply (Cl e1 l1)|eapply (Cl e2 l2)|eapply (Cl e3 l3)]; auto; now left.
    + assert (La : forall e l, proper v0 (e :: l) v1 -> l <> [] -> exists l' z, l = l' ++ [z] /\ In (twin z) (adj v1)).
      { intros e' l ([H P] & _) N. destruct (exists_last N) as (l' & z & ->). exists l', z. split; auto.
        pose proof (path_last g adj _ _ _ _ P) as Q. apply path_app in P as (w & _ & P). cbn in P. destruct P as [P _]. rewrite <- Q. eapply (arc_twin g adj R); eauto. }
      destruct (La _ _ T1 N1) as (l1' & z1 & Q1 & A1), (La _ _ T2 N2) as (l2' & z2 & Q2 & A2), (La _ _ T3 N3) as (l3' & z3 & Q3 & A3).
      assert (Dz : forall e l l' z e' m m', proper v0 (e :: l) v1 -> proper v0 (e' :: m) v1 -> l = l' ++ [z] -> m = m' ++ [z] -> e = e').
      { intros e' l l' z e'' m m' H H' K K'. assert (Q : e' :: l = e'' :: m).
        { eapply (proper_same g adj R _ _ _ _ _ _ z); eauto; right; [rewrite K|rewrite K']; apply in_or_app; right; now left. }
        congruence. }
      assert (Inc : incl (adj v1) [twin z1; twin z2; twin z3]).
      { apply NoDup_length_incl.
        - assert (z1 <> z2) by (intros ->; apply D12; eapply Dz; eauto). assert (z1 <> z3) by (intros ->; apply D13; eapply Dz; eauto).
          assert (z2 <> z3) by (intros ->; apply D23; eapply Dz; eauto).
          assert (Ti : forall a b, twin a = twin b -> a = b) by (intros a b Q; rewrite <- (twin_invol a), Q; apply twin_invol).
          constructor; [intros [Q|[Q|[]]]; apply Ti in Q; congruence|]. constructor; [intros [Q|[]]; apply Ti in Q; congruence|]. constructor; [intros []|constructor].
        - rewrite L1'. auto.
        - intros x [<-|[<-|[<-|[]]]]; auto. }
      apply Inc in Hw. destruct Hw as [<-|[<-|[<-|[]]]]; apply Sw; [apply (Cl e1 l1)|apply (Cl e2 l2)|apply (Cl e3 l3)]; auto; right; [rewrite Q1|rewrite Q2|rewrite Q3];
        apply in_or_app; right; now left.
    + destruct (Oth w N0 Nw) as [Q|D]; [rewrite Q in Hw; destruct Hw|].
      assert (K : forall e' l', ((e' = e1 /\ l' = l1) \/ (e' = e2 /\ l' = l2) \/ (e' = e3 /\ l' = l3)) -> proper v0 (e' :: l') v1 -> In w (internals (e' :: l')) ->
        exists p, In p [[e1]; [e2]; [e3]; rev (map twin l1); rev (map twin l2); rev (map twin l3)] /\ (In e p \/ In (twin e) p)).
      { intros e' l' K H I. apply internal_split in I as (m1 & a & b & m2 & Eq & <-). pose proof (proj1 H) as P. rewrite Eq in P. apply path_mid in P as (B1 & wa & B2).
        pose proof (proj1 (proj2 H)) as (_ & A & _). destruct (A _ _ _ _ Eq) as [_ Eb]. destruct (nxt_ok g adj R _ _ B2 D) as (_ & _ & X).
        destruct (X e Hw) as [-> | ->].
        - apply Sw. apply (Cl e' l' K). rewrite Eq. apply in_or_app; right; now left.
        - rewrite <- Eb. apply (Cl e' l' K). rewrite Eq. apply in_or_app; right; right; now left. }
      destruct (Cv w D) as [I|[I|I]]; [apply (K e1 l1)|apply (K e2 l2)|apply (K e3 l3)]; auto.
Qed.

(** What a subdivision of K2,3 looks like from either of the vertices of degree three. *)
Lemma k23_facts : bipartite_subdivision g adj 2 3 -> exists a0 a1, a0 <> a1 /\ length (adj a0) = 3%nat /\ length (adj a1) = 3%nat /\
  (forall v, v <> a0 -> v <> a1 -> adj v = [] \/ deg2 v) /\
  forall s t, (s = a0 /\ t = a1) \/ (s = a1 /\ t = a0) ->
    (forall e, In e (adj s) -> exists l, l <> [] /\ proper s (e :: l) t) /\
    (forall x, deg2 x -> exists e l, l <> [] /\ proper s (e :: l) t /\ In x (internals (e :: l))).
Proof.
  intros (a & b & La & Lb & S). destruct a as [|a0 [|a1 [|? ?]]]; try discriminate La. destruct b as [|b1 [|b2 [|b3 [|? ?]]]]; try discriminate Lb.
  pose proof (subdivision_nodup _ _ _ _ S) as ND. destruct (bip_pattern _ _ ND) as (NE & HE & Hnb).
  destruct (complete g adj R _ _ _ NE HE Hnb S) as [(paths & F & Dg & Oth & Inn & Int & Uni & Arc) _].
  cbn [list_prod map app] in F.
  inversion F as [|? P1 ? F1 p1 F1']; subst. inversion F1' as [|? P2 ? F2 p2 F2']; subst. inversion F2' as [|? P3 ? F3 p3 F3']; subst.
  inversion F3' as [|? Q1 ? F4 q1 F4']; subst. inversion F4' as [|? Q2 ? F5 q2 F5']; subst. inversion F5' as [|? Q3 ? F6 q3 F6']; subst.
  inversion F6'; subst. cbn [fst snd] in *. clear F F1' F2' F3' F4' F5' F6'.
  assert (a0 <> a1) as Na by (pose proof ND as K; cbn in K; apply NoDup_cons_iff in K as [K _]; cbn in K; intuition congruence).
  assert (Hb : forall x, In x [b1; b2; b3] -> x <> a0 /\ x <> a1).
  { intros x Hx. apply NoDup_app_inv in ND as (_ & _ & D). split; intros ->; eapply D; eauto; cbn; auto. }
  set (paths := [P1; P2; P3; Q1; Q2; Q3]) in *.
  assert (O0 : oppo [a0; a1] [b1; b2; b3] a0 = [b1; b2; b3]) by (unfold oppo; destruct (in_dec _ _ _) as [|n]; auto; exfalso; apply n; now left).
  assert (O1 : oppo [a0; a1] [b1; b2; b3] a1 = [b1; b2; b3]) by (unfold oppo; destruct (in_dec _ _ _) as [|n]; auto; exfalso; apply n; right; now left).
  assert (Ob : forall x, In x [b1; b2; b3] -> oppo [a0; a1] [b1; b2; b3] x = [a0; a1]).
  { intros x Hx. destruct (Hb x Hx). unfold oppo. destruct (in_dec _ _ _) as [[I|[I|[]]]|]; auto; congruence. }
  assert (D0 : length (adj a0) = 3%nat) by (rewrite Dg by (now left); now rewrite O0).
  assert (D1 : length (adj a1) = 3%nat) by (rewrite Dg by (right; now left); now rewrite O1).
  assert (Db : forall x, In x [b1; b2; b3] -> deg2 x).
  { intros x Hx. unfold ObsP.deg2. rewrite Dg by (apply in_or_app; auto). now rewrite Ob. }
  assert (N0 : ~ deg2 a0 /\ ~ deg2 a1) by (unfold ObsP.deg2; rewrite D0, D1; split; discriminate).
  exists a0, a1. split; auto. split; auto. split; auto. split.
  { intros v H0 H1. destruct (in_dec Z.eq_dec v [b1; b2; b3]) as [I|I]; [right; auto|].
    destruct (Oth v) as [|[? _]]; auto. intros J. apply in_app_iff in J as [J|J]; auto. cbn in J. intuition congruence. }
  (* gluing two paths at a vertex b *)
  assert (Glue : forall s t b P Q, In P paths -> In Q paths -> path g adj s P b -> path g adj t Q b -> s <> t -> In b [b1; b2; b3] ->
     (s = a0 \/ s = a1) -> (t = a0 \/ t = a1) ->
     proper s (P ++ rev (map twin Q)) t /\ exists e l l', P ++ rev (map twin Q) = e :: l /\ P = e :: l' /\ l <> [] /\
       (forall x, In x (internals P) \/ In x (internals Q) \/ x = b -> In x (internals (P ++ rev (map twin Q))))).
  { intros s t b P Q HP HQ pP pQ Nst Ib Hs Ht. destruct (Hb b Ib) as [B0 B1].
    assert (NP : P <> []) by (intros ->; cbn in pP; destruct Hs; congruence).
    assert (NQ : Q <> []) by (intros ->; cbn in pQ; destruct Ht; congruence).
    pose proof (Db b Ib) as D.
    destruct (exists_last NP) as (P' & x & EP). destruct (exists_last NQ) as (Q' & z & EQ).
    pose proof (path_rev g adj R _ _ _ pQ) as pQr.
    assert (pT : path g adj s (P ++ rev (map twin Q)) t) by (apply path_app; eauto).
    assert (Eb : hv x = b) by (rewrite EP in pP; eapply path_last; eauto).
    assert (Ez : hv z = b) by (rewrite EQ in pQ; eapply path_last; eauto).
    assert (Hx : exists w, In x (adj w)) by (eapply path_arcs; [exact pP|rewrite EP; apply in_or_app; right; now left]).
    assert (Hz : exists w, In z (adj w)) by (eapply path_arcs; [exact pQ|rewrite EQ; apply in_or_app; right; now left]).
    destruct Hx as (wx & Hx), Hz as (wz & Hz).
    assert (Nxz : x <> z).
    { intros ->. assert (H : P = Q) by (apply (Uni P Q z); auto; [rewrite EP|rewrite EQ]; apply in_or_app; right; now left).
      rewrite <- H in pQ. destruct P as [|h P0]; [congruence|]. apply Nst. eapply (ch_disj _ _ (rep_chains _ _ R)); [apply pP|apply pQ]. }
    assert (Nx : twin z = nxt x).
    { destruct (nxt_ok g adj R wx x Hx) as (_ & _ & X); [now rewrite Eb|]. pose proof (arc_twin g adj R _ _ Hz) as T. rewrite Ez, <- Eb in T.
      destruct (X _ T) as [K|K]; auto. exfalso. apply Nxz. rewrite <- (twin_invol x), <- K. apply twin_invol. }
    assert (Er : rev (map twin Q) = twin z :: rev (map twin Q')) by (rewrite EQ, map_app, rev_app_distr; reflexivity).
    assert (IT : inner (P ++ rev (map twin Q))).
    { rewrite Er, EP, <- app_assoc. cbn [app]. apply inner_app; auto.
      - rewrite <- EP. intros l1 u v l2 K. exact (Inn P _ _ _ _ HP K).
      - rewrite <- Er. eapply inner_rev; [exact pQ|]. intros l1 u v l2 K. exact (Inn Q _ _ _ _ HQ K).
      - now rewrite Eb. }
    assert (NT : P ++ rev (map twin Q) <> []) by (destruct P; [congruence|discriminate]).
    split.
    - split; auto. split; [|destruct Hs as [-> | ->]; tauto].
      destruct (exists_last NT) as (T' & y & ET). rewrite ET. apply thr_inner; [rewrite <- ET; auto|].
      rewrite ET in pT. rewrite (path_last g adj _ _ _ _ pT). destruct Ht as [-> | ->]; tauto.
    - destruct P as [|e l']; [congruence|]. exists e, (l' ++ rev (map twin Q)), l'. split; auto. split; auto. split.
      + rewrite Er. destruct l'; discriminate.
      + intros y Hy.
        assert (Ein : forall l1 l2, l2 <> [] -> forall y, In y (map hv l1) \/ In y (internals l2) -> In y (internals (l1 ++ l2))).
        { intros l1 l2 N2 k K. unfold ObsSpec.internals. rewrite removelast_app by auto. rewrite map_app, in_app_iff. exact K. }
        apply Ein; [rewrite Er; discriminate|]. destruct Hy as [Hy|[Hy|Hy]].
        * left. unfold ObsSpec.internals in Hy. apply in_map_iff in Hy as (k & <- & Hk). apply in_map.
          rewrite EP in *. rewrite removelast_last in Hk. apply in_or_app; auto.
        * right. rewrite (internals_rev _ _ _ pQ). apply -> in_rev. auto.
        * left. rewrite Hy, <- Eb. apply in_map. rewrite EP. apply in_or_app; right; now left. }
  assert (Pick : forall s t, (s = a0 /\ t = a1) \/ (s = a1 /\ t = a0) ->
     (forall e, In e (adj s) -> exists P Q b q, In P paths /\ In Q paths /\ In b [b1; b2; b3] /\ path g adj s P b /\ path g adj t Q b /\ P = e :: q) /\
     (forall x, deg2 x -> exists P Q b, In P paths /\ In Q paths /\ In b [b1; b2; b3] /\ path g adj s P b /\ path g adj t Q b /\ (In x (internals P) \/ In x (internals Q) \/ x = b))).
  { intros s t Hst.
    assert (PQ : forall b, In b [b1; b2; b3] -> exists P Q, In P paths /\ In Q paths /\ path g adj s P b /\ path g adj t Q b).
    { intros b Hb'. unfold paths.
      destruct Hst as [[-> ->]|[-> ->]]; destruct Hb' as [<-|[<-|[<-|[]]]];
        [exists P1, Q1|exists P2, Q2|exists P3, Q3|exists Q1, P1|exists Q2, P2|exists Q3, P3]; cbn; auto 12. }
    assert (Own : forall p, In p paths -> exists b, In b [b1; b2; b3] /\ (path g adj s p b \/ path g adj t p b)).
    { intros p Hp. unfold paths in Hp.
      destruct Hst as [[-> ->]|[-> ->]]; destruct Hp as [<-|[<-|[<-|[<-|[<-|[<-|[]]]]]]];
        [exists b1|exists b2|exists b3|exists b1|exists b2|exists b3|exists b1|exists b2|exists b3|exists b1|exists b2|exists b3]; cbn; auto 12. }
    assert (PQp : forall p b, In p paths -> In b [b1; b2; b3] -> path g adj s p b -> exists Q, In Q paths /\ path g adj t Q b).
    { intros p b _ Hb' _. destruct (PQ b Hb') as (_ & Q & _ & ? & _ & ?). eauto. }
    assert (PQq : forall p b, In p paths -> In b [b1; b2; b3] -> path g adj t p b -> exists Q, In Q paths /\ path g adj s Q b).
    { intros p b _ Hb' _. destruct (PQ b Hb') as (Q & _ & ? & _ & ? & _). eauto. }
    split.
    - intros e He. assert (Hs : In s ([a0; a1] ++ [b1; b2; b3])) by (destruct Hst as [[-> _]|[-> _]]; cbn; auto).
      destruct (Arc s e Hs He) as (p & v & q & Hp & [(I & P & Ep)|(I & _ & _)]).
      + apply in_prod_iff in I as [_ I]. destruct (PQp p v Hp I P) as (Q & HQ & pQ). exists p, Q, v, q. auto 8.
      + exfalso. apply in_prod_iff in I as [_ I]. destruct (Hb _ I). destruct Hst as [[-> _]|[-> _]]; congruence.
    - intros x Hx. destruct (in_dec Z.eq_dec x [b1; b2; b3]) as [I|I].
      + destruct (PQ x I) as (P & Q & HP & HQ & pP & pQ). exists P, Q, x. auto 8.
      + destruct (Oth x) as [K|[_ (p & Hp & Ip)]].
        * intros J. apply in_app_iff in J as [J|J]; auto. destruct J as [<-|[<-|[]]]; tauto.
        * unfold ObsP.deg2 in Hx. rewrite K in Hx. discriminate.
        * destruct (Own p Hp) as (b & Hb' & [P|P]).
          -- destruct (PQp p b Hp Hb' P) as (Q & HQ & pQ). exists p, Q, b. auto 8.
          -- destruct (PQq p b Hp Hb' P) as (Q & HQ & pQ). exists Q, p, b. auto 8. }
  intros s t Hst. destruct (Pick s t Hst) as [A B].
  assert (Nst : s <> t) by (destruct Hst as [[-> ->]|[-> ->]]; congruence).
  assert (Hs : s = a0 \/ s = a1) by (destruct Hst as [[-> ->]|[-> ->]]; auto).
  assert (Ht : t = a0 \/ t = a1) by (destruct Hst as [[-> ->]|[-> ->]]; auto).
  split.
  - intros e He. destruct (A e He) as (P & Q & b & q & HP & HQ & Ib & pP & pQ & EP).
    destruct (Glue s t b P Q HP HQ pP pQ Nst Ib Hs Ht) as (T & e' & l & l' & E1 & E2 & Nl & _).
    rewrite E1 in T. assert (e' = e) by congruence. subst e'. eauto.
  - intros x Hx. destruct (B x Hx) as (P & Q & b & HP & HQ & Ib & pP & pQ & Ix).
    destruct (Glue s t b P Q HP HQ pP pQ Nst Ib Hs Ht) as (T & e & l & l' & E1 & E2 & Nl & Iy).
    exists e, l. split; auto. rewrite <- E1. auto.
Qed.
End Theta.

Section Tests.
Variables (g0 : graph) (adj : Z -> list Z).
Hypothesis R : rep g0 adj.
Hypothesis PE : primary_edges g0 adj.
Notation hv := (enbr g0).
Notation deg2 := (deg2 adj).
Notation thr := (thr g0 adj).
Notation nxt := (nxt g0 adj).
Notation proper := (proper g0 adj).
Notation internals := (internals g0).
Notation vm := (vertex_marks_only g0).
Notation deg := (deg adj).
Notation big := (big adj).
Notation cnt := (cnt g0).
Notation vs := (vs g0).
Notation image_facts := (image_facts g0 adj).

Definition startable (u : Z) : Prop :=
  forall a, In a (adj u) -> exists q v, path g0 adj u (a :: q) v /\ thr (a :: q) /\ (length (a :: q) <= efuel g0)%nat.

Lemma k23_paths_ok v0 v1 bs : forall pre g, vm g -> (forall b, In b bs -> primary g0 b /\ startable b) ->
  exists g' ok, k23_paths (length bs) g (v0 :: v1 :: pre ++ bs) (2 + Z.of_nat (length pre)) = Ret (g', ok) /\ vm g' /\
   if ok then
     (forall x, visited g x = true -> visited g' x = true) /\
     (forall b, In b bs -> exists l, path g0 adj b l v1 /\ thr l /\ forall x, In x (b :: internals l) -> visited g' x = true) /\
     (forall x, visited g' x = true -> visited g x = true \/ exists b l, In b bs /\ path g0 adj b l v1 /\ thr l /\ In x (b :: internals l))
   else exists b, In b bs /\ forall l, path g0 adj b l v1 -> ~ thr l.
Proof.
  induction bs as [|b bs IH]; intros pre g F Hb; cbn [length k23_paths].
  - exists g, true. split; auto. split; auto. split; auto. split; [intros ? []|auto].
  - rewrite a_rd_ok by (cbn [length]; rewrite app_length; cbn [length]; lia).
    replace (Z.to_nat (2 + Z.of_nat (length pre))) with (S (S (length pre))) by lia. cbn [bind nth].
    rewrite nth_middle. rewrite a_rd_ok by (cbn [length]; lia). change (Z.to_nat 1) with 1%nat. cbn [bind nth].
    destruct (Hb b (or_introl eq_refl)) as [Pb Sb].
    destruct (test_path_ok0 g0 adj R PE b v1 g F Pb Sb) as (g1 & r & -> & F1 & X). cbn [bind].
    destruct X as [(-> & l & Pl & Tl & V1)|(-> & -> & X)].
    + change (negb (C_TRUE =? C_TRUE)) with false. cbv iota. rewrite set_visited_ok by (now apply (vm_inV g0)). cbn [bind].
      assert (F2 : vm (mark_v g1 b true)) by (eapply vm_trans; [exact F1|apply vm_mark; now apply (vm_prim g0)]).
      destruct (IH (pre ++ [b]) (mark_v g1 b true) F2) as (g' & ok & E & F' & H); [intros; apply Hb; now right|].
      rewrite <- app_assoc, app_length in E. cbn [app length] in E.
      replace (2 + Z.of_nat (length pre) + 1) with (2 + Z.of_nat (length pre + 1)) by lia. rewrite E.
      exists g', ok. split; auto. split; auto. destruct ok.
      * destruct H as (H1 & H2 & H3).
        assert (Vb : forall x, visited (mark_v g1 b true) x = true <-> visited g x = true \/ In x (b :: internals l)).
        { intros x. rewrite visited_markv. cbn [In]. destruct (Z.eqb_spec x b) as [->|Nx]; [tauto|]. rewrite (V1 x). split; [tauto|]. intros [|[|]]; auto; congruence. }
        split; [|split].
        -- intros x Hx. apply H1, Vb. auto.
        -- intros c [<-|Hc]; [|auto]. exists l. split; auto. split; auto. intros x Hx. apply H1, Vb. auto.
        -- intros x Hx. destruct (H3 x Hx) as [Q|(c & l' & Q & K)]; [|right; exists c, l'; split; [now right|auto]].
           apply Vb in Q as [Q|Q]; [auto|]. right. exists b, l. split; [now left|auto].
      * destruct H as (c & Hc & H). exists c. split; [now right|auto].
    + change (negb (C_FALSE =? C_TRUE)) with true. cbv iota. exists g, false. split; auto. split; auto. exists b. split; [now left|auto].
Qed.

Lemma first_arcs_startable v0 e : ~ deg2 v0 -> In e (adj v0) -> startable (hv e).
Proof.
  intros D0 He a Ha. destruct (deg2_dec adj (hv e)) as [D|D].
  - destruct (nxt_ok g0 adj R _ _ He D) as (_ & _ & X). destruct (X a Ha) as [-> | ->].
    + exists [], v0. pose proof (arc_tail g0 adj R _ _ He) as T. split; [cbn; auto|]. split; [apply thr_one; rewrite T; auto|]. unfold efuel. cbn. lia.
    + destruct (thread_exists g0 adj R v0 e D0 He) as (l & v & (P & T & _) & Hl). apply thr_inv in T as [[_ N]|(_ & l' & -> & T)]; [tauto|].
      exists l', v. destruct P as [_ P]. split; auto. split; auto. cbn [length] in *. lia.
  - destruct (thread_exists g0 adj R _ a D Ha) as (l & v & (P & T & _) & Hl). exists l, v. split; auto. split; auto. lia.
Qed.

(** The only thread from the head b of an arc e of v0 to v1 continues that arc. *)
Lemma from_nbr v0 v1 e l : v0 <> v1 -> ~ deg2 v0 -> In e (adj v0) -> deg2 (hv e) -> path g0 adj (hv e) l v1 -> thr l ->
  l <> [] /\ proper v0 (e :: l) v1.
Proof.
  intros N D0 He D P T. destruct l as [|a l]; [destruct (proj1 T eq_refl)|]. split; [discriminate|].
  destruct P as [Ha P]. destruct (nxt_ok g0 adj R _ _ He D) as (_ & _ & X). destruct (X a Ha) as [-> | ->].
  - exfalso. pose proof (arc_tail g0 adj R _ _ He) as Q. assert (T1 : thr [twin e]) by (apply thr_one; now rewrite Q).
    rewrite (thr_det g0 adj _ _ _ T T1) in P. cbn in P. congruence.
  - split; [split; [auto|split; auto]|]. split; auto. apply thr_cons; auto.
Qed.

Ltac rda := rewrite a_rd_ok by (cbn [length]; lia);
  change (Z.to_nat 0) with 0%nat; change (Z.to_nat 1) with 1%nat; cbn [nth bind].

Lemma k23_nbr_ok g v0 v1 e1 e2 e3 p2 p3 p4 : vm g -> adj v0 = [e1; e2; e3] ->
  k23_nbr_loop (efuel g) g [v0; v1; p2; p3; p4] 2 e1 =
  Ret (if (hv e1 =? v1) || (hv e2 =? v1) || (hv e3 =? v1) then None else Some [v0; v1; hv e1; hv e2; hv e3]).
Proof.
  intros F Ea. pose proof (adj_len g adj v0 (vm_chains g0 adj R g F)) as L. rewrite Ea in L. cbn [length] in L.
  destruct (efuel g) as [|[|[|[|n]]]]; try lia. clear L.
  pose proof (chains_walks g0 adj v0 (rep_chains _ _ R)) as W. rewrite Ea in W. cbn [walks hd] in W. destruct W as (W1 & W2 & W3 & _).
  assert (I : forall e, In e [e1; e2; e3] -> e <> NIL /\ inE g e = true).
  { intros e He. rewrite <- Ea in He. split; [intros ->; exact (rep_nonil _ _ _ R He)|]. eapply vm_arcE; eauto. }
  destruct (I e1) as [N1 I1]; [cbn; auto|]. destruct (I e2) as [N2 I2]; [cbn; auto|]. destruct (I e3) as [N3 I3]; [cbn; auto|].
  cbn [k23_nbr_loop].
  rewrite (proj2 (Z.eqb_neq _ _) N1), get_nbr by auto. cbn [bind]. rewrite (vm_enbr _ _ F), a_wr_ok by (cbn [length]; lia).
  change (Z.to_nat 2) with 2%nat. cbn [bind list_set]. rda. destruct (hv e1 =? v1); [reflexivity|]. cbn [orb].
  rewrite get_next by auto. cbn [bind]. rewrite (vm_enext _ _ F), W1.
  rewrite (proj2 (Z.eqb_neq _ _) N2), get_nbr by auto. cbn [bind]. rewrite (vm_enbr _ _ F), a_wr_ok by (cbn [length]; lia).
  change (Z.to_nat (2 + 1)) with 3%nat. cbn [bind list_set]. rda. destruct (hv e2 =? v1); [reflexivity|]. cbn [orb].
  rewrite get_next by auto. cbn [bind]. rewrite (vm_enext _ _ F), W2.
  rewrite (proj2 (Z.eqb_neq _ _) N3), get_nbr by auto. cbn [bind]. rewrite (vm_enbr _ _ F), a_wr_ok by (cbn [length]; lia).
  change (Z.to_nat (2 + 1 + 1)) with 4%nat. cbn [bind list_set]. rda. destruct (hv e3 =? v1); [reflexivity|]. cbn [orb].
  rewrite get_next by auto. cbn [bind]. rewrite (vm_enext _ _ F), W3. reflexivity.
Qed.

Lemma k23_test_ok g ds imgs : vm g -> image_facts 3 5 ds imgs ->
  exists g' r, _TestForK23GraphObstruction g ds imgs = Ret (g', r) /\ vm g' /\ (r = C_TRUE \/ r = C_FALSE) /\
    (bipartite_subdivision g0 adj 2 3 -> r = C_TRUE) /\
    (loop_free g0 adj -> r = C_TRUE -> bipartite_subdivision g0 adj 2 3).
Proof.
  intros F (Hdeg & Hlen & Hcnt & pad & Ei & Li). unfold _TestForK23GraphObstruction.
  assert (Nth : forall d, 0 <= d <= 3 -> a_rd ds d = Ret (cnt (fun v => deg v =? d))).
  { intros d Hd. rewrite a_rd_ok by lia. now rewrite Hcnt by lia. }
  rewrite !Nth by lia. cbn [bind].
  assert (D03 : forall v, primary g0 v -> deg v = 0 \/ deg v = 2 \/ deg v = 3).
  { intros v Hv. destruct (Hdeg v Hv). assert (0 <= deg v) by (unfold ObsP3.deg; lia). lia. }
  set (cs := filter big vs) in *.
  assert (NDc : NoDup cs) by apply NoDup_filter, vs_nodup.
  assert (Inc : forall v, In v cs <-> primary g0 v /\ deg v = 3).
  { intros v. unfold cs. rewrite filter_In, (in_vs g0 adj R). unfold ObsP3.big. split; intros [H1 H2]; split; auto; [|lia]. destruct (D03 v H1); lia. }
  assert (Inc3 : forall v, length (adj v) = 3%nat -> In v cs).
  { intros v Hv. apply Inc. assert (deg v = 3) by (unfold ObsP3.deg; lia). split; auto. apply (deg_prim g0 adj PE). lia. }
  assert (Lc : cnt (fun v => deg v =? 3) = Z.of_nat (length cs)).
  { unfold ObsP3.cnt, cs. rewrite (filter_ext_in big (fun v => deg v =? 3)); [lia|].
    intros v Hv. apply (in_vs g0 adj R) in Hv. unfold ObsP3.big. destruct (D03 v Hv); lia. }
  rewrite Lc.
  assert (Cor : bipartite_subdivision g0 adj 2 3 -> length cs = 2%nat).
  { intros S. destruct (k23_facts g0 adj R S) as (a0 & a1 & Na & L0 & L1 & Oth & _).
    assert (ND2 : NoDup [a0; a1]) by (constructor; [intros [Q|[]]; congruence|constructor; [intros []|constructor]]).
    apply Nat.le_antisymm.
    - apply (NoDup_incl_length (l' := [a0; a1]) NDc). intros v Hv. apply Inc in Hv as [_ Hv]. destruct (Z.eq_dec v a0) as [->|N0]; [now left|].
      destruct (Z.eq_dec v a1) as [->|N1]; [right; now left|]. exfalso. unfold ObsP3.deg in Hv. destruct (Oth v N0 N1) as [Q|Q]; [rewrite Q in Hv; cbn in Hv; lia|unfold ObsP.deg2 in Q; lia].
    - apply (NoDup_incl_length (l' := cs) ND2). intros v [<-|[<-|[]]]; auto. }
  destruct (Z.eqb_spec (Z.of_nat (length cs)) 2) as [E2|E2]; cbn [negb].
  2:{ exists g, C_FALSE. split; auto. split; auto. split; auto. split; [|discriminate]. intros S. apply Cor in S. lia. }
  destruct cs as [|v0 [|v1 [|? ?]]] eqn:Ecs; try (cbn [length] in E2; lia).
  rewrite Ei in Li. rewrite Ei. cbn [app length] in *. destruct pad as [|p2 [|p3 [|p4 [|? ?]]]]; cbn [length] in Li; try lia.
  assert (Nv : v0 <> v1) by (apply NoDup_cons_iff in NDc as [N _]; cbn in N; intuition congruence).
  destruct (proj1 (Inc v0)) as [P0 D0]; [now left|]. destruct (proj1 (Inc v1)) as [P1 D1]; [right; now left|].
  assert (L0 : length (adj v0) = 3%nat) by (unfold ObsP3.deg in D0; lia).
  assert (L1 : length (adj v1) = 3%nat) by (unfold ObsP3.deg in D1; lia).
  destruct (adj v0) as [|e1 [|e2 [|e3 [|? ?]]]] eqn:Ea; try discriminate L0.
  assert (N0 : ~ deg2 v0) by (unfold ObsP.deg2; rewrite Ea; discriminate).
  assert (N1 : ~ deg2 v1) by (unfold ObsP.deg2; rewrite L1; discriminate).
  assert (Oth : forall v, v <> v0 -> v <> v1 -> adj v = [] \/ deg2 v).
  { intros v H0 H1. destruct (adj v) as [|a l] eqn:El; auto. right. assert (Pv : primary g0 v) by (apply (src_prim g0 adj PE v a); rewrite El; now left).
    apply deg2_deg. destruct (D03 v Pv) as [Q|[Q|Q]]; auto.
    - unfold ObsP3.deg in Q. rewrite El in Q. cbn in Q. lia.
    - exfalso. assert (I : In v [v0; v1]) by (apply Inc; auto). cbn in I. intuition congruence. }
  rda. rewrite (first_ok g adj v0 (vm_chains g0 adj R g F)) by (now apply (vm_isv g0)). rewrite Ea. cbn [bind hd].
  rewrite (k23_nbr_ok g v0 v1 e1 e2 e3 p2 p3 p4 F Ea). cbn [bind].
  (* what a subdivision says about v0 and v1 *)
  assert (Sd : bipartite_subdivision g0 adj 2 3 ->
     (forall e, In e (adj v0) -> exists l, l <> [] /\ proper v0 (e :: l) v1) /\
     (forall x, deg2 x -> exists e l, l <> [] /\ proper v0 (e :: l) v1 /\ In x (internals (e :: l)))).
  { intros S. destruct (k23_facts g0 adj R S) as (a0 & a1 & Na & La0 & La1 & _ & H). apply H.
    apply Inc3 in La0. apply Inc3 in La1. cbn in La0, La1. intuition congruence. }
  assert (Hd2 : forall e l, l <> [] -> proper v0 (e :: l) v1 -> deg2 (hv e)).
  { intros e [|b l] N H; [congruence|]. eapply internal_deg2; [exact H|]. now left. }
  assert (Sb : bipartite_subdivision g0 adj 2 3 -> forall e, In e (adj v0) -> deg2 (hv e)).
  { intros S e He. destruct (proj1 (Sd S) e He) as (l & Nl & T). eauto. }
  destruct ((hv e1 =? v1) || (hv e2 =? v1) || (hv e3 =? v1)) eqn:En.
  { exists g, C_FALSE. split; auto. split; auto. split; auto. split; [|discriminate]. intros S. exfalso.
    assert (B : forall e, In e [e1; e2; e3] -> (hv e =? v1) = false).
    { intros e He. rewrite <- Ea in He. apply Z.eqb_neq. intros Q. apply N1. rewrite <- Q. auto. }
    rewrite !B in En by (cbn; auto). discriminate. }
  assert (Nb : forall e, In e (adj v0) -> hv e <> v1).
  { intros e He. rewrite Ea in He. destruct He as [<-|[<-|[<-|[]]]]; lia. }
  destruct (clear_all_ok g) as (h & -> & Fh & Vh); [rewrite (vm_N _ _ F); unfold primary in P0; lia|]. cbn [bind].
  assert (F0 : vm h) by (eapply vm_trans; eauto).
  assert (Bs : forall b, In b [hv e1; hv e2; hv e3] -> exists e, In e (adj v0) /\ b = hv e) 
    by (rewrite Ea; intros b [<-|[<-|[<-|[]]]]; [exists e1|exists e2|exists e3]; cbn; auto).
  destruct (k23_paths_ok v0 v1 [hv e1; hv e2; hv e3] [] h F0) as (g4 & ok & E & F4 & H).
  { intros b Hb. destruct (Bs b Hb) as (e & He & ->). split; [eapply head_prim; eauto|]. now apply (first_arcs_startable v0). }
  cbn [app length] in E. change (2 + Z.of_nat 0) with 2 in E. rewrite E. cbn [bind].
  destruct ok; cbn [negb].
  2:{ exists g4, C_FALSE. split; auto. split; auto. split; auto. split; [|discriminate]. intros S. exfalso.
      destruct H as (b & Hb & H). destruct (Bs b Hb) as (e & He & ->). destruct (proj1 (Sd S) e He) as (l & Nl & P & T & _).
      apply thr_inv in T as [[Q _]|(_ & l' & El & T)]; [congruence|]. apply (H l); auto. apply P. }
  destruct H as (_ & H2 & H3).
  rewrite (count_visited_ok g0 adj R g4 _ F4). cbn [bind].
  eexists _, _. split; [reflexivity|]. split; auto. split; [destruct (_ =? 0); auto|].
  assert (VD : forall x, primary g0 x -> visited g4 x = true -> exists b l, In b [hv e1; hv e2; hv e3] /\ path g0 adj b l v1 /\ thr l /\ In x (b :: internals l)).
  { intros x Px Hx. destruct (H3 x Hx) as [Q|Q]; auto. exfalso. rewrite Vh in Q; [discriminate|]. unfold primary in *. now rewrite (vm_N _ _ F). }
  assert (Cont : (forall e, In e (adj v0) -> deg2 (hv e)) -> forall e l, In e (adj v0) -> path g0 adj (hv e) l v1 -> thr l ->
     l <> [] /\ proper v0 (e :: l) v1 /\ internals (e :: l) = hv e :: internals l).
  { intros D e l He P T. destruct (from_nbr v0 v1 e l Nv N0 He (D e He) P T) as [Nl Pr]. split; auto. split; auto. destruct l; [congruence|reflexivity]. }
  assert (Full : (forall e, In e (adj v0) -> deg2 (hv e)) -> cnt (fun v => deg v =? 2) - cnt (visited g4) = 0 <-> forall x, deg2 x -> visited g4 x = true).
  { intros D. apply (visited_full g0 adj R PE). intros x Px Hx. destruct (VD x Px Hx) as (b & l & Hb & P & T & Il). destruct (Bs b Hb) as (e & He & ->).
    destruct (Cont D e l He P T) as (_ & Pr & Q). rewrite <- Q in Il. eapply internal_deg2; eauto. }
  split.
  - intros S. rewrite (proj2 (Z.eqb_eq _ _)); auto. apply (Full (Sb S)). intros x Hx. destruct (proj2 (Sd S) x Hx) as (e & l & Nl & Pr & Ix).
    assert (He : In e (adj v0)) by apply Pr.
    destruct (H2 (hv e)) as (l' & P' & T' & V'); [rewrite Ea in He; cbn in *; intuition (subst; auto)|].
    destruct (Cont (Sb S) e l' He P' T') as (_ & Pr' & Q). apply V'. rewrite <- Q.
    assert (El : e :: l = e :: l') by (apply (proper_same g0 adj R _ _ _ _ _ _ e Pr Pr'); now left). rewrite <- El. auto.
  - intros LF Q.
    assert (D : forall e, In e (adj v0) -> deg2 (hv e)).
    { intros e He. destruct (Oth (hv e)) as [K|K]; auto. pose proof (arc_twin g0 adj R _ _ He) as T. rewrite K in T. destruct T. }
    assert (Z0 : cnt (fun v => deg v =? 2) - cnt (visited g4) = 0) by (destruct (Z.eqb_spec (cnt (fun v => deg v =? 2) - cnt (visited g4)) 0); auto; discriminate).
    pose proof (proj1 (Full D) Z0) as AV.
    assert (T : forall e, In e (adj v0) -> exists l, l <> [] /\ proper v0 (e :: l) v1).
    { intros e He. destruct (H2 (hv e)) as (l' & P' & T' & _); [rewrite Ea in He; cbn in *; intuition (subst; auto)|].
      destruct (Cont D e l' He P' T') as (? & ? & _). eauto. }
    destruct (T e1) as (l1 & Nl1 & T1); [rewrite Ea; cbn; auto|]. destruct (T e2) as (l2 & Nl2 & T2); [rewrite Ea; cbn; auto|].
    destruct (T e3) as (l3 & Nl3 & T3); [rewrite Ea; cbn; auto|].
    apply (theta_sound g0 adj R v0 v1 e1 e2 e3 l1 l2 l3); auto.
    intros x Hx. destruct (VD x) as (b & l & Hb & P & Tl & Il); [apply (deg_prim g0 adj PE); apply deg2_deg in Hx; lia|auto|].
    destruct (Bs b Hb) as (e & He & ->). destruct (Cont D e l He P Tl) as (_ & Pr & Qi). rewrite <- Qi in Il.
    assert (Sm : forall e' l', e' = e -> proper v0 (e' :: l') v1 -> In x (internals (e' :: l'))).
    { intros e' l' -> Pr'. assert (El : e :: l = e :: l') by (apply (proper_same g0 adj R _ _ _ _ _ _ e Pr Pr'); now left). rewrite <- El. auto. }
    rewrite Ea in He. destruct He as [He|[He|[He|[]]]]; auto.
Qed.

Lemma outerplanar_ok g : vm g ->
  exists g' r, _CheckOuterplanarObstructionIntegrity g = Ret (g', r) /\ vm g' /\ (r = C_OK \/ r = C_NOTOK) /\
    (complete_subdivision g0 adj 4 \/ bipartite_subdivision g0 adj 2 3 -> r = C_OK) /\
    (loop_free g0 adj -> r = C_OK -> complete_subdivision g0 adj 4 \/ bipartite_subdivision g0 adj 2 3).
Proof.
  intros F. unfold _CheckOuterplanarObstructionIntegrity.
  assert (Dg : bipartite_subdivision g0 adj 2 3 -> exists cs, length cs = 2%nat /\ NoDup cs /\ (forall c, In c cs -> deg c = 3) /\ (forall v, ~ In v cs -> deg v = 0 \/ deg v = 2)).
  { intros S. destruct (k23_facts g0 adj R S) as (a0 & a1 & Na & L0 & L1 & Oth & _). exists [a0; a1]. split; auto.
    split; [constructor; [intros [Q|[]]; congruence|constructor; [intros []|constructor]]|]. split.
    - intros c [<-|[<-|[]]]; unfold ObsP3.deg; lia.
    - intros v Hv. destruct (Oth v) as [Q|Q]; try (intros ->; apply Hv; cbn; auto); [left; unfold ObsP3.deg; now rewrite Q|right; now apply deg2_deg]. }
  destruct (images_ok g0 adj R g 3 5 F) as (r & -> & Hr); try lia. cbn [bind]. destruct r as [[ds imgs]|].
  - destruct (complete_test_ok g0 adj R PE g 4 ds imgs F) as (g1 & ds1 & r1 & E1 & F1 & O1 & C1 & D1); [lia|exact Hr|].
    change (Z.of_nat 4) with 4 in E1. rewrite E1. cbn [bind]. destruct O1 as [-> | ->].
    + change (C_TRUE =? C_TRUE) with true. cbv iota. exists g1, C_OK. split; auto. split; auto. split; auto. split; auto. intros _ _. left. now apply C1.
    + change (C_FALSE =? C_TRUE) with false. cbv iota.
      destruct (k23_test_ok g1 ds imgs F1 Hr) as (g2 & r2 & E2 & F2 & O2 & C2 & C3).
      assert (N4 : ~ complete_subdivision g0 adj 4) by (intros S; apply C1 in S; discriminate).
      destruct D1 as [-> | (Ld & D1 & D2)].
      * rewrite E2. cbn [bind]. eexists _, _. split; [reflexivity|]. split; auto. destruct O2 as [-> | ->].
        -- change (C_TRUE =? C_TRUE) with true. cbv iota. split; auto.
        -- change (C_FALSE =? C_TRUE) with false. cbv iota. split; auto. split; [|discriminate]. intros [S|S]; [tauto|]. apply C2 in S. discriminate.
      * change (4 - 1)%nat with 3%nat in *. assert (N23 : ~ bipartite_subdivision g0 adj 2 3).
        { intros S. destruct (Dg S) as (cs & Lc & ND & D3 & Do). destruct (corner_facts g0 adj R PE cs 3 ND) as (_ & Q1 & _); auto; [lia|].
          destruct Hr as (_ & _ & Hc & _). specialize (Hc 3 ltac:(lia)). change (Z.to_nat 3) with 3%nat in Hc. rewrite Q1, Lc in Hc. lia. }
        destruct Hr as (_ & Hl & _). unfold _TestForK23GraphObstruction. rewrite a_rd_ok by lia. cbn [bind]. change (Z.to_nat 3) with 3%nat. rewrite D1.
        change (negb (Z.of_nat 4 =? 2)) with true. cbv iota. cbn [bind]. exists g1, C_NOTOK. split; [reflexivity|]. split; auto. split; auto. split; [tauto|discriminate].
  - exists g, C_NOTOK. split; auto. split; auto. split; auto. split; [|discriminate]. intros [S|S]; exfalso.
    + destruct (complete_facts g0 adj R 4 ltac:(lia) S) as (cs & Lc & ND & _ & A & B).
      revert Hr. apply (image_none g0 adj R PE 3 5 4 ltac:(lia) ltac:(lia) (Z.of_nat 4 - 1) cs); auto. lia.
    + destruct (Dg S) as (cs & Lc & ND & D3 & Do).
      revert Hr. apply (image_none g0 adj R PE 3 5 2 ltac:(lia) ltac:(lia) 3 cs); auto; lia.
Qed.
End Tests.
