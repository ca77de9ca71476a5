(** * Thm_App: the random-graph test of the planarity program finds no errors and counts rightly. *)
From Coq Require Import ZifyBool Permutation.
From Verif Require Import Base BaseP GraphRec GraphM GraphSpec GSimp LinkP GraphP GraphP2 GraphP3 GraphP4 GraphP5 GraphEx CopySpec Thm_Copy RandM RandSpec RandP Thm_Rand DFSM DFSSpec DFSP DFSP3 DFSP4 DFSP7 TestM TestSpec TestP EmbM EmbedSpec EmbedP ObsSpec PlanSpec OutSpec PlanE Thm_Test Thm_Obs Thm_Embed Thm_Planar Thm_Outer Thm_Iso Thm_IsoK RoomP AgainSpec Thm_Again AppM.

(** ** The generator only adds edges *)
Definition kept (N c s : Z) (g : graph) : Prop := used_inv g /\ gN g = N /\ gCap g = c /\ gstackCap g = s.
Lemma add_kept N c s g u v g' r : kept N c s g -> u <= N -> v <= N -> gp_AddEdge g u 0 v 0 = Ret (g', r) -> kept N c s g'.
Proof.
  intros ((I1 & I2 & I3) & EN & EC & ES) Hu Hv H. subst N.
  assert (V : gop_valid g (GAdd u 0 v 0)) by (split; left; reflexivity).
  assert (Q : clean_op g (GAdd u 0 v 0)) by (split; [split; assumption|exact I]).
  split; [split; [|split]|].
  - pose proof (gstep_inv g _ I1 V) as W. cbn [gstep] in W. rewrite H in W. exact W.
  - pose proof (plain_gstep g _ I1 I2 V (proj1 Q)) as W. cbn [gstep] in W. rewrite H in W. exact W.
  - pose proof (clean_gstep g _ I1 I3 V Q) as W. cbn [gstep] in W. rewrite H in W. exact W.
  - destruct I1 as ((adj & R) & _). pose proof (add_edge_ok g adj u 0 v 0 R (proj1 V) (proj2 V)) as W. rewrite H in W. cbn [wp fst snd] in W.
    unfold add_post in W. destruct (negb _); [destruct W as [-> _]; auto|]. destruct (_ <=? _); [destruct W as [-> _]; auto|].
    destruct W as [_ P]. pose proof (ip_frame _ _ _ _ _ _ _ _ _ P) as F. rewrite (if_N _ _ F), (if_cap _ _ F), (GraphP2.if_stackCap _ _ F). auto.
Qed.
Lemma tree_kept N c s rnd : stream_ok rnd -> N <= INT_MAX -> forall n k g v g' k' r, kept N c s g -> 2 <= v -> v + Z.of_nat n <= N + 1 ->
  tree_edges n rnd k g v = Ret (g', k', r) -> kept N c s g'.
Proof.
  intros St HN. induction n as [|n IH]; intros k g v g' k' r K Hv Hn H; cbn [tree_edges] in H.
  - injection H as <- _ _. exact K.
  - rewrite random_ok in H by (first [apply St | unfold INT_MAX in *; lia]). cbn [bind] in H. pose proof (pick_range (rnd k) 1 (v - 1) ltac:(lia)) as Pr.
    destruct (gp_AddEdge g (pick (rnd k) 1 (v - 1)) 0 v 0) as [[g1 r1]| |] eqn:E; cbn [bind] in H; try discriminate.
    pose proof (add_kept N c s g (pick (rnd k) 1 (v - 1)) v g1 r1 K ltac:(lia) ltac:(lia) E) as K1.
    destruct (negb (r1 =? C_OK)); [injection H as <- _ _; exact K1|]. apply (IH (S k) g1 (v + 1) g' k' r); auto; lia.
Qed.
Lemma extra_kept N c s rnd : stream_ok rnd -> N <= INT_MAX -> forall n k g m M g' k' r, kept N c s g -> (N <= 1 -> M <= m) ->
  extra_edges n rnd k g m M = Ret (g', k', r) -> kept N c s g'.
Proof.
  intros St HN. induction n as [|n IH]; intros k g m M g' k' r K Hm H; cbn [extra_edges] in H; [discriminate|].
  destruct (m <? M) eqn:Em; [|injection H as <- _ _; exact K]. assert (EN : gN g = N) by apply K. rewrite EN in H.
  rewrite random_ok in H by (first [apply St | unfold INT_MAX in *; lia]). cbn [bind] in H. pose proof (pick_range (rnd k) 1 (N - 1) ltac:(lia)) as Pr. set (u := pick (rnd k) 1 (N - 1)) in *.
  rewrite random_ok in H by (first [apply St | unfold INT_MAX in *; lia]). cbn [bind] in H. pose proof (pick_range (rnd (S k)) (u + 1) N ltac:(lia)) as Ps. set (v := pick (rnd (S k)) (u + 1) N) in *.
  destruct (gp_IsNeighbor g u v) as [nb| |]; cbn [bind] in H; try discriminate. destruct (negb (nb =? 0)); [apply (IH (S (S k)) g m M g' k' r); auto|].
  destruct (gp_AddEdge g u 0 v 0) as [[g1 r1]| |] eqn:E; cbn [bind] in H; try discriminate.
  pose proof (add_kept N c s g u v g1 r1 K ltac:(lia) ltac:(lia) E) as K1.
  destruct (negb (r1 =? C_OK)); [injection H as <- _ _; exact K1|]. apply (IH (S (S k)) g1 (m + 1) M g' k' r); auto. lia.
Qed.
Lemma random_kept N c s fuel rnd g g' r : stream_ok rnd -> 1 <= N <= INT_MAX -> kept N c s g -> gp_CreateRandomGraph fuel rnd g = Ret (g', r) -> kept N c s g'.
Proof.
  intros St HN K H. unfold gp_CreateRandomGraph in H. cbv zeta in H. assert (EN : gN g = N) by apply K. rewrite EN in H.
  destruct (tree_edges (Z.to_nat (N - 1)) rnd 0 g 2) as [[[g1 k1] r1]| |] eqn:E; cbn [bind] in H; try discriminate.
  pose proof (tree_kept N c s rnd St (proj2 HN) (Z.to_nat (N - 1)) 0%nat g 2 g1 k1 r1 K (Z.le_refl 2) ltac:(lia) E) as K1.
  destruct (negb (r1 =? C_OK)); [injection H as <- _; exact K1|].
  destruct (int_ok (7 * N)); cbn [guard] in H; [|discriminate].
  destruct (_GetRandomNumber _ _ _) as [M| |]; cbn [bind] in H; try discriminate.
  destruct (int_ok (N * (N - 1))); cbn [guard] in H; [|discriminate].
  match type of H with bind (extra_edges fuel rnd ?k g1 ?m ?M') _ = _ => destruct (extra_edges fuel rnd k g1 m M') as [[[g2 k2] r2]| |] eqn:E2; cbn [bind] in H; try discriminate end.
  injection H as <- _. refine (extra_kept N c s rnd St (proj2 HN) _ _ _ _ _ _ _ _ K1 _ E2). intros HN1.
  replace N with 1 by lia. assert (X : 1 * (1 - 1) / 2 = 0) by reflexivity. rewrite X. destruct (M >? 0) eqn:EM; lia.
Qed.

(** ** One round *)
Record idle (N : Z) (g : graph) : Prop := { id_kept : kept N (6 * N) (2 * (6 * N + 2)) g; id_rep : rep g no_adj; id_stack : gstack g = [] }.
Lemma idle_reinit N h A : 1 <= N -> rep h A -> gN h = N -> gCap h = 6 * N -> gstackCap h = 2 * (6 * N + 2) -> idle N (gp_ReinitializeGraph h).
Proof.
  intros HN R EN EC ES. pose proof (reinit_ok h A R) as (R' & Cl & St & M & N' & Cp & Sc). cbv zeta in *.
  constructor; auto. split; [|rewrite N', Cp, Sc; auto]. apply (reinit_used h A R). unfold roomy, stk_room. rewrite EC, ES. lia.
Qed.
Lemma idle_make N : 1 <= N -> exists g, MakeGraph N = Some g /\ idle N g.
Proof.
  intros HN. unfold MakeGraph. destruct (gp_InitGraph gp_New N) as [g r] eqn:E. exists g.
  assert (F : fresh_graph 0 N = Ret g) by (unfold fresh_graph, gp_EnsureArcCapacity; cbn [Z.leb Z.compare bind]; now rewrite E).
  pose proof (fresh_ok 0 N HN) as W. rewrite F in W. cbn [wp] in W. destruct W as (R & EN & Cl & Hst & _).
  pose proof (used_reach_inv g (us_init 0 N g HN F)) as V.
  unfold gp_InitGraph, _InitGraph in E. replace (N <=? 0) with false in E by lia. cbv zeta in E. cbn [gN gp_New Z.eqb negb] in E.
  injection E as <- <-. split; [reflexivity|]. constructor; [|exact R|exact Hst].
  split; [exact V|]. unfold _InitIsolatorContext, _InitEdges, _InitVertices, lists_reset, gp_EdgeIndexBound. gsimp. cbn [gCap gN gp_New set_gN Z.gtb Z.compare].
  repeat split; try lia. replace (2 * (2 + 2 * 3 * N) <? 6 * N) with false by lia. lia.
Qed.
Lemma idle_empty N g : 1 <= N -> idle N g -> empty_graph g.
Proof.
  intros HN [((I1 & I2 & I3) & _) R St]. destruct I1 as (_ & Cl & _). destruct I2 as (_ & P & _). constructor; [exact R| |intros v _; apply P].
  intros e He. apply Cl; auto. intros U. apply (rep_in_use _ _ _ R) in U. destruct U as [v []].
Qed.

(** What the graph was tested for. *)
Definition tested_for (flags : Z) (g : graph) (adj : Z -> list Z) : Prop :=
  (flags = EMBEDFLAGS_PLANAR -> planar_graph g adj) /\ (flags = EMBEDFLAGS_OUTERPLANAR -> outerplanar_graph g adj).
Lemma copy_sub g adj o h A : rep g adj -> same_content g o -> sub_adj h A g adj -> sub_adj h A o adj.
Proof.
  intros R C H v e He. destruct (H v e He) as (v' & e' & H1 & H2 & H3). exists v', e'.
  pose proof (ch_isvertex _ _ _ _ (rep_chains _ _ R) H1) as V.
  destruct (sc_edge _ _ C e' (ch_range _ _ (rep_chains _ _ R) v' e' H1)) as (_ & _ & En & _).
  assert (V' : is_vertex g (enbr g e')).
  { destruct (rep_twins _ _ R _ _ H1) as [_ T]. exact (ch_isvertex _ _ _ _ (rep_chains _ _ R) T). }
  unfold label, is_sorted in *. rewrite (sc_iflags _ _ C), En.
  destruct (sc_vert _ _ C v' V) as (_ & _ & -> & _). destruct (sc_vert _ _ C (enbr g e') V') as (_ & _ & -> & _). auto.
Qed.
Lemma copy_sup g adj o h A : rep g adj -> same_content g o -> sub_adj g adj h A -> sub_adj o adj h A.
Proof.
  intros R C H v e He. destruct (H v e He) as (v' & e' & H1 & H2 & H3). exists v', e'.
  pose proof (ch_isvertex _ _ _ _ (rep_chains _ _ R) He) as V.
  destruct (sc_edge _ _ C e (ch_range _ _ (rep_chains _ _ R) v e He)) as (_ & _ & En & _).
  assert (V' : is_vertex g (enbr g e)).
  { destruct (rep_twins _ _ R _ _ He) as [_ T]. exact (ch_isvertex _ _ _ _ (rep_chains _ _ R) T). }
  unfold label, is_sorted in *. rewrite (sc_iflags _ _ C), En.
  destruct (sc_vert _ _ C v V) as (_ & _ & -> & _). destruct (sc_vert _ _ C (enbr g e) V') as (_ & _ & -> & _). auto.
Qed.
Lemma round_check g adj o flags h r : rep g adj -> primary_edges g adj -> unsearched g adj -> embed_ready g adj -> giflags g = 0 \/ giflags g = 8 ->
  simple_graph g adj -> flags = EMBEDFLAGS_PLANAR \/ flags = EMBEDFLAGS_OUTERPLANAR ->
  rep o adj -> same_content g o -> gp_Embed g flags = Ret (h, r) ->
  exists h' o' A, gp_TestEmbedResultIntegrity h o r = Ret (h', o', r) /\ rep h' A /\ rep o' adj /\
    (r = C_OK /\ tested_for flags g adj \/ r = C_NONEMBEDDABLE /\ ~ tested_for flags g adj).
Proof.
  intros R P U E F0 S F Ro C H.
  assert (Po : primary_edges o adj) by (intros v e He; unfold primary; rewrite (sc_N _ _ C); exact (P v e He)).
  assert (Sg : is_sorted g = false) by (unfold is_sorted; destruct F0 as [-> | ->]; reflexivity).
  assert (So : sort_state o) by (intros Q; unfold is_sorted in *; rewrite (sc_iflags _ _ C) in Q; rewrite Q in Sg; discriminate).
  assert (D : r = C_OK /\ tested_for flags g adj \/ r = C_NONEMBEDDABLE /\ ~ tested_for flags g adj).
  { destruct F as [-> | ->].
    - destruct (C58_embed_decides_planarity g adj EMBEDFLAGS_PLANAR R P S U E eq_refl) as (h0 & r0 & H0 & D); rewrite H in H0; injection H0 as <- <-.
      destruct D as [[D1 D2]|[D1 D2]]; [left|right]; (split; [exact D1|]); [split; [auto|discriminate]|intros [Q _]; auto].
    - destruct (C60_embed_decides_outerplanarity g adj EMBEDFLAGS_OUTERPLANAR R P S U E ltac:(discriminate)) as (h0 & r0 & H0 & D); rewrite H in H0; injection H0 as <- <-.
      destruct D as [[D1 D2]|[D1 D2]]; [left|right]; (split; [exact D1|]); [split; [discriminate|auto]|intros [_ Q]; auto]. }
  destruct (embed_ok g adj flags R P S U E) as (h0 & r0 & H0 & K). rewrite H in H0. injection H0 as <- <-.
  assert (I : forall A, isolated_subgraph g adj h A -> gembed h = flags ->
     (flags = EMBEDFLAGS_PLANAR /\ (complete_subdivision h A 5 \/ bipartite_subdivision h A 3 3) \/
      flags = EMBEDFLAGS_OUTERPLANAR /\ (complete_subdivision h A 4 \/ bipartite_subdivision h A 2 3)) ->
     giflags h = Z.lxor (Z.lor (giflags g) FLAGS_DFSNUMBERED) FLAGS_SORTEDBYDFI -> (forall v, primary h v -> par h v <> NIL -> primary h (par h v)) ->
     exists h' o' A, gp_TestEmbedResultIntegrity h o C_NONEMBEDDABLE = Ret (h', o', C_NONEMBEDDABLE) /\ rep h' A /\ rep o' adj).
  { intros A Is Fl Ob If Pa. pose proof Is as [Rh Ph N Ix Inj Ar En].
    assert (Sh : is_sorted h = true) by (unfold is_sorted; rewrite If; destruct F0 as [-> | ->]; reflexivity).
    assert (Pn : forall v, primary h v <-> primary g v) by (intros v; unfold primary; now rewrite N).
    destruct (C53_obstruction_integrity h A o adj) as (h' & o' & r' & H1 & _ & _ & H3 & H4 & _ & H2); auto.
    - rewrite (sc_N _ _ C). exact N.
    - intros _. split; [rewrite If; destruct F0 as [-> | ->]; discriminate|]. split; [intros v Hv; apply Pn, Ix, Pn, Hv|]. split; [intros v w Hv Hw; apply Inj; now apply Pn|exact Pa].
    - intros _ v e He Q. apply (proj1 S (vindex h v) e (Ar v e He)). rewrite <- (En v e He). now rewrite Q.
    - exists h', o', A. rewrite H1. split; [do 2 f_equal; apply H2; rewrite Fl|auto]. split; [|exact Ob]. apply (copy_sub g); auto.
      intros v e He. exists (vindex h v), e. unfold label. rewrite Sh, Sg. cbn [negb andb]. split; [exact (Ar v e He)|]. split; [reflexivity|]. symmetry. exact (En v e He). }
  destruct K as [(-> & _ & _ & K1 & K2) | (-> & A & PE & Rt & Ou & Fl & If & Pa & Rm & _)].
  - assert (X : exists h' o' A, gp_TestEmbedResultIntegrity h o C_NONEMBEDDABLE = Ret (h', o', C_NONEMBEDDABLE) /\ rep h' A /\ rep o' adj).
    { destruct F as [-> | ->]; [destruct (K2 eq_refl) as (A & Is & Ob & Fl & If & Pa)|destruct (K1 eq_refl) as (A & Is & Ob & Fl & If & Pa)];
        apply (I A); auto; [left|right]; (split; [reflexivity|tauto]). }
    destruct X as (h' & o' & A & X1 & X2 & X3). exists h', o', A. auto.
  - pose proof PE as [Rh Ph N M Ix Inj Ar En Eu].
    assert (Sh : is_sorted h = true) by (unfold is_sorted; rewrite If; destruct F0 as [-> | ->]; reflexivity).
    assert (Pn : forall v, primary h v <-> primary g v) by (intros v; unfold primary; now rewrite N).
    destruct (C53_embedding_integrity h A o adj) as (h' & o' & r' & H1 & H3 & _ & H4 & _ & _ & H2); auto.
    + rewrite (sc_N _ _ C). exact N.
    + intros _. split; [rewrite If; destruct F0 as [-> | ->]; discriminate|]. split; [intros v Hv; apply Pn, Ix, Pn, Hv|]. split; [intros v w Hv Hw; apply Inj; now apply Pn|exact Pa].
    + destruct (embedding_sub g adj h A R P PE Sh Sg) as [Q1 Q2].
      exists h', o', A. rewrite H1. split; [do 2 f_equal; apply H2|auto]. split; [now apply (copy_sub g)|]. split; [now apply (copy_sup g)|]. split; [assumption|].
      rewrite Fl. intros ->. apply Ou. discriminate.
Qed.
Lemma round_ok N fuel rnd flags g o : 1 <= N <= 10000 -> stream_ok rnd -> flags = EMBEDFLAGS_PLANAR \/ flags = EMBEDFLAGS_OUTERPLANAR -> idle N g -> idle N o ->
  random_round fuel rnd flags g o = OOF /\ gp_CreateRandomGraph fuel rnd g = OOF \/
  exists g1 adj g' o' r, gp_CreateRandomGraph fuel rnd g = Ret (g1, C_OK) /\ rep g1 adj /\ gN g1 = N /\ simple g1 adj /\ all_connected g1 adj /\
    random_round fuel rnd flags g o = Ret (g', o', r) /\ idle N g' /\ idle N o' /\
    (r = C_OK /\ tested_for flags g1 adj \/ r = C_NONEMBEDDABLE /\ ~ tested_for flags g1 adj).
Proof.
  intros HN St F Ig Io. pose proof (id_kept _ _ Ig) as Kg. pose proof (id_kept _ _ Io) as (_ & EN & EC & ES).
  assert (NN : N * (N - 1) <= 10000 * 10000) by nia. assert (B : 10000 * 10000 <= INT_MAX) by (unfold INT_MAX; lia).
  assert (D6 : 6 * N / 2 = 3 * N) by (replace (6 * N) with (3 * N * 2) by lia; apply Z.div_mul; lia).
  assert (KN : gN g = N) by apply Kg. assert (KC : gCap g = 6 * N) by apply Kg.
  destruct (C20_create_random_graph g rnd fuel (idle_empty N g (proj1 HN) Ig) St) as [X|(g1 & adj & X & R & N1 & P & S & Co & _)];
    rewrite ?KN, ?KC, ?D6; try (unfold INT_MAX in *; lia).
  { left. unfold random_round. rewrite X. auto. }
  right. pose proof (random_kept N _ _ fuel rnd g g1 C_OK St ltac:(unfold INT_MAX in *; lia) Kg X) as (V & _ & C1 & S1).
  rewrite KN in N1. assert (Sk : gstack g1 = []) by apply V.
  destruct (C14_copy_graph o no_adj g1 adj (id_rep _ _ Io)) as [_ Cp]; [rewrite (id_stack _ _ Io), ES; cbn [length]; lia|exact R|lia|].
  destruct (Cp ltac:(congruence)) as (c & X2 & Sc & _ & Rc).
  assert (Ev : Z.land (gCap g1) 1 = 0) by (rewrite C1; change 1 with (Z.ones 1); rewrite Z.land_ones by lia; replace (6 * N) with (3 * N * 2 ^ 1) by lia; apply Z.mod_mul; lia).
  destruct (copy_room o g1 c C_OK) as (CN & CC & CS); try congruence; try lia; [rewrite Sk, S1; cbn [length]; lia|].
  destruct (used_ready_all g1 V adj R) as (Pe & U & E). assert (F1 : giflags g1 = 0) by apply V.
  destruct (C55_embed_is_planar g1 adj flags R P S U E) as (h & r & X3 & _).
  destruct (embed_room g1 flags h r X3) as (HN' & HC & HS).
  destruct (round_check g1 adj c flags h r R Pe U E (or_introl F1) S F Rc Sc X3) as (h' & o' & A & X4 & Rh & Ro & D).
  destruct (check_room h c r h' o' r) as ((N3 & C3 & S3) & N4 & C4 & S4); try congruence.
  exists g1, adj, (gp_ReinitializeGraph h'), (gp_ReinitializeGraph o'), r. do 5 (split; [assumption|]). split.
  { unfold random_round. rewrite X. cbn [bind]. rewrite Z.eqb_refl, X2. cbn [bind]. rewrite X3. cbn [bind]. rewrite X4. cbn [bind]. rewrite Z.eqb_refl. reflexivity. }
  split; [apply (idle_reinit N h' A); try congruence; lia|]. split; [apply (idle_reinit N o' adj); try congruence; lia|]. exact D.
Qed.

(** ** C67 *)
(** The graph of round K: made by the generator out of an edgeless graph, connected, without loops or
    repeated edges, and its verdict. *)
Definition round_graph (fuel : nat) (rnd : nat -> nat -> Z) (flags N : Z) (K : nat) (gb : graph * bool) : Prop :=
  exists g0 adj, empty_graph g0 /\ gp_CreateRandomGraph fuel (rnd K) g0 = Ret (fst gb, C_OK) /\ rep (fst gb) adj /\ gN (fst gb) = N /\
    simple (fst gb) adj /\ all_connected (fst gb) adj /\ (snd gb = true <-> tested_for flags (fst gb) adj).
Lemma loop_ok N fuel rnd flags : 1 <= N <= 10000 -> (forall K, stream_ok (rnd K)) -> flags = EMBEDFLAGS_PLANAR \/ flags = EMBEDFLAGS_OUTERPLANAR ->
  forall n K g o r0 stat, idle N g -> idle N o -> r0 = C_OK \/ r0 = C_NONEMBEDDABLE ->
  random_loop n fuel rnd flags K g o r0 stat = OOF \/
  exists gs r, Forall2 (round_graph fuel rnd flags N) (seq K n) gs /\ (r = C_OK \/ r = C_NONEMBEDDABLE) /\
    random_loop n fuel rnd flags K g o r0 stat = Ret (r, stat + Z.of_nat (length (filter snd gs))).
Proof.
  intros HN St F. induction n as [|n IH]; intros K g o r0 stat Ig Io Hr; cbn [random_loop].
  - right. exists [], r0. split; [constructor|]. split; [exact Hr|]. cbn. f_equal. f_equal. lia.
  - destruct (round_ok N fuel (rnd K) flags g o HN (St K) F Ig Io) as [[-> _]|(g1 & adj & g' & o' & r & X & R & N1 & Si & Co & E & Ig' & Io' & D)]; [left; reflexivity|].
    rewrite E. cbn [bind]. cbv zeta.
    assert (Er : r = C_OK \/ r = C_NONEMBEDDABLE) by tauto.
    assert (Eb : negb (r =? C_OK) && negb (r =? C_NONEMBEDDABLE) = false) by (destruct Er as [-> | ->]; reflexivity). rewrite Eb.
    destruct (IH (S K) g' o' r (if r =? C_OK then stat + 1 else stat) Ig' Io' Er) as [-> |(gs & r' & FA & Er' & ->)]; [left; reflexivity|].
    right. exists ((g1, r =? C_OK) :: gs), r'. split; [|split; [exact Er'|]].
    + cbn [seq]. constructor; [|exact FA]. exists g, adj. cbn [fst snd]. split; [apply (idle_empty N); auto; lia|]. do 5 (split; [assumption|]).
      destruct D as [[-> D]|[-> D]]; (split; [intros Q; auto|]); auto; discriminate Q.
    + cbn [filter snd]. f_equal. f_equal. destruct (r =? C_OK); cbn [length]; lia.
Qed.
Lemma number_range num answer mx : 1 <= mx -> 1 <= GetNumberIfZero num answer 1 mx <= mx /\ (1 <= num <= mx -> GetNumberIfZero num answer 1 mx = num).
Proof.
  intros H. unfold GetNumberIfZero. cbv zeta. change (1 <? 1) with false. cbv iota. replace (mx <? 1) with false by lia.
  assert (Q : 1 <= (mx + 1) / 2 <= mx) by (split; [apply Z.div_le_lower_bound; lia|apply Z.div_le_upper_bound; lia]).
  split.
  - destruct ((_ <? _) || _) eqn:E; lia.
  - intros Hn. replace (num =? 0) with false by lia. replace ((num <? 1) || (num >? mx)) with false by lia. reflexivity.
Qed.

(** The random test of the planarity program, for whatever numbers the user gives and whatever rand()
    returns (short of overflow in the mixing of its bits, C20): unless the generator keeps drawing pairs that
    are already joined, every round ends with a right verdict accepted by the program's own check, no error
    is reported, and the number of graphs embedded is the number of planar (outerplanar) ones among those
    generated. *)
Theorem C67_random_test :
  forall fuel rnd flags NumGraphs a1 SizeOfGraphs a2, (forall K, stream_ok (rnd K)) -> flags = EMBEDFLAGS_PLANAR \/ flags = EMBEDFLAGS_OUTERPLANAR ->
    RandomGraphs fuel rnd flags NumGraphs a1 SizeOfGraphs a2 = OOF \/
    exists n N gs, 1 <= n <= 1000000000 /\ (1 <= NumGraphs <= 1000000000 -> n = NumGraphs) /\
      1 <= N <= 10000 /\ (1 <= SizeOfGraphs <= 10000 -> N = SizeOfGraphs) /\
      Forall2 (round_graph fuel rnd flags N) (seq 0 (Z.to_nat n)) gs /\
      RandomGraphs fuel rnd flags NumGraphs a1 SizeOfGraphs a2 = Ret (C_OK, Z.of_nat (length (filter snd gs))).
Proof.
  intros fuel rnd flags NumGraphs a1 SizeOfGraphs a2 St F. unfold RandomGraphs. cbv zeta.
  destruct (number_range NumGraphs a1 1000000000 ltac:(lia)) as [Hn Hn']. destruct (number_range SizeOfGraphs a2 10000 ltac:(lia)) as [HN HN'].
  set (n := GetNumberIfZero NumGraphs a1 1 1000000000) in *. set (N := GetNumberIfZero SizeOfGraphs a2 1 10000) in *. clearbody n N.
  destruct (idle_make N (proj1 HN)) as (g & -> & Ig).
  destruct (loop_ok N fuel rnd flags HN St F (Z.to_nat n) 0 g g C_OK 0 Ig Ig (or_introl eq_refl)) as [-> |(gs & r & FA & Er & ->)]; [left; reflexivity|].
  right. exists n, N, gs. do 5 (split; [assumption|]). cbn [bind]. destruct Er as [-> | ->]; reflexivity.
Qed.

(** With values of rand() that bring up every pair of vertices again and again in every round, the test ends. *)
Theorem C67_random_test_terminates :
  forall rnd flags n N, (forall K, stream_ok (rnd K)) -> flags = EMBEDFLAGS_PLANAR \/ flags = EMBEDFLAGS_OUTERPLANAR ->
    1 <= n <= 1000000000 -> 1 <= N <= 10000 -> (forall K, fair N (Z.to_nat N) (rnd K)) ->
    exists fuel0, forall fuel, (fuel0 <= fuel)%nat -> exists r, RandomGraphs fuel rnd flags n 0 N 0 = Ret r.
Proof.
  intros rnd flags n N St F Hn HN Fa.
  assert (L : forall m K g o r0 stat, idle N g -> idle N o -> exists fuel0, forall fuel, (fuel0 <= fuel)%nat -> exists r, random_loop m fuel rnd flags K g o r0 stat = Ret r).
  { induction m as [|m IH]; intros K g o r0 stat Ig Io; [exists 0%nat; intros; eexists; reflexivity|].
    pose proof (id_kept _ _ Ig) as (_ & KN & KC & _).
    assert (NN : N * (N - 1) <= 10000 * 10000) by nia.
    assert (D6 : 6 * N / 2 = 3 * N) by (replace (6 * N) with (3 * N * 2) by lia; apply Z.div_mul; lia).
    destruct (C20_create_random_graph_terminates g (rnd K) (idle_empty N g (proj1 HN) Ig) (St K)) as (f1 & p & H1);
      rewrite ?KN, ?KC, ?D6; try (unfold INT_MAX in *; lia); [apply Fa|].
    destruct (round_ok N f1 (rnd K) flags g o HN (St K) F Ig Io) as [[_ X]|(g1 & adj & g' & o' & r & X & _ & _ & _ & _ & E & Ig' & Io' & D)].
    { rewrite H1 in X by lia. discriminate. }
    destruct (IH (S K) g' o' r (if r =? C_OK then stat + 1 else stat) Ig' Io') as (f2 & H2). exists (Nat.max f1 f2). intros fuel Hf. cbn [random_loop].
    assert (E' : random_round fuel (rnd K) flags g o = Ret (g', o', r)).
    { rewrite <- E. unfold random_round. rewrite (H1 fuel), (H1 f1) by lia. reflexivity. }
    rewrite E'. cbn [bind]. cbv zeta. assert (Er : r = C_OK \/ r = C_NONEMBEDDABLE) by tauto.
    assert (Eb : negb (r =? C_OK) && negb (r =? C_NONEMBEDDABLE) = false) by (destruct Er as [-> | ->]; reflexivity). rewrite Eb. apply H2. lia. }
  unfold RandomGraphs. cbv zeta. rewrite (proj2 (number_range n 0 1000000000 ltac:(lia)) Hn), (proj2 (number_range N 0 10000 ltac:(lia)) HN).
  destruct (idle_make N (proj1 HN)) as (g & -> & Ig). destruct (L (Z.to_nat n) 0%nat g g C_OK 0 Ig Ig) as (f0 & H). exists f0.
  intros fuel Hf. destruct (H fuel Hf) as ([r s] & ->). cbn [bind]. eexists. reflexivity.
Qed.

(** Six graphs of seven vertices, three of them planar; and streams that are fair for three vertices. *)
Definition rnd_many (K k : nat) : Z := (Z.of_nat k * Z.of_nat k * 7 + Z.of_nat K * 131 + Z.of_nat k * 31) mod 1009.
Example random_test_case :
  (forall K, stream_ok (rnd_many K)) /\ RandomGraphs 400 rnd_many EMBEDFLAGS_PLANAR 6 0 7 0 = Ret (C_OK, 3) /\
  stream_ok rnd_demo /\ fair 3 (Z.to_nat 3) rnd_demo /\ RandomGraphs 30 (fun _ => rnd_demo) EMBEDFLAGS_OUTERPLANAR 4 0 3 0 = Ret (C_OK, 4).
Proof.
  split; [|split; [vm_compute; reflexivity|split; [apply random_case|split; [apply random_case|vm_compute; reflexivity]]]].
  intros K k. unfold rnd_many. pose proof (Z.mod_pos_bound (Z.of_nat k * Z.of_nat k * 7 + Z.of_nat K * 131 + Z.of_nat k * 31) 1009 ltac:(lia)) as B.
  set (r := _ mod 1009) in *. unfold draw_ok, INT_MAX. rewrite (Z.div_small r 65536) by lia. split; [lia|left; lia].
Qed.

Definition Thm_App_all := (@C67_random_test, @C67_random_test_terminates, @random_test_case).
Print Assumptions Thm_App_all.
