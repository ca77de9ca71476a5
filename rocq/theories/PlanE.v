(** * PlanE: a planar graph has neither obstruction. *)
From Coq Require Import ZifyBool Permutation.
From Verif Require Import Base BaseP GraphRec GraphM GraphSpec LinkP GraphP GraphP2 GraphP3 DFSSpec DFSP4 TestSpec TestP TestP3 EmbedSpec OrbitP FaceP EmbEuler PlanSpec PlanP.

Lemma orbit_list f L r : (forall x, In x L -> In (f x) L) -> (forall x y, In x L -> In y L -> f x = f y -> x = y) -> In r L ->
  exists l, fclosed f l /\ NoDup l /\ forall x, In x l <-> exists k, Nat.iter k f r = x.
Proof.
  intros C I Hr. destruct (orbit_period f L C I r Hr) as (p & [P1 P2] & E & Nd & _). exists (map (fun k => Nat.iter k f r) (seq 1 p)). split; [|split; [exact Nd|]].
  - split; [destruct p; [lia|discriminate]|]. destruct p as [|p]; [lia|]. change (hd NIL (map (fun k => Nat.iter k f r) (seq 1 (S p)))) with (f r).
    assert (G : forall n a, Nat.iter (a + n) f r = r -> fchain f (map (fun k => Nat.iter k f r) (seq (S a) n)) (f r)).
    { induction n as [|n IH]; intros a Ha; [exact Logic.I|]. cbn [seq map fchain]. split.
      - destruct n as [|n]; [cbn [seq map hd]; f_equal; replace (a + 1)%nat with (S a) in Ha by lia; exact Ha|]. reflexivity.
      - apply (IH (S a)). replace (S a + n)%nat with (a + S n)%nat by lia. exact Ha. }
    apply (G (S p) 0%nat). exact E.
  - intros x. rewrite in_map_iff. split; [intros (k & <- & _); eauto|]. intros (k & <-). apply in_map_iff. now apply (orbit_in_list f L).
Qed.

Section Euler.
Variables (g : graph) (adj B : Z -> list Z).
Hypothesis R : rep g adj.
Hypothesis P : primary_edges g adj.
Hypothesis NL : forall u e, In e (adj u) -> enbr g e <> u.
Hypothesis Bp : forall v, Permutation (B v) (adj v).
Hypothesis Eu : euler g B.
Let vs := map Z.of_nat (seq 1 (Z.to_nat (gN g))).
Let nb := enbr g.

Lemma in_vs x : In x vs <-> primary g x.
Proof. unfold vs, primary. rewrite in_map_iff. split; [intros (k & <- & H); apply in_seq in H; lia|]. intros H. exists (Z.to_nat x). split; [lia|apply in_seq; lia]. Qed.
Lemma vs_nodup : NoDup vs.
Proof. unfold vs. apply FinFun.Injective_map_NoDup; [intros a b; lia|apply seq_NoDup]. Qed.
Lemma in_B v e : In e (B v) <-> In e (adj v).
Proof. split; apply Permutation_in; [auto|now apply Permutation_sym]. Qed.
Lemma B_nodup x : NoDup (B x).
Proof. eapply Permutation_NoDup; [apply Permutation_sym, Bp|]. apply (ch_nodup _ _ (rep_chains _ _ R)). Qed.
Lemma B_vs x e : In e (B x) -> In x vs.
Proof. intros H. apply in_B in H. apply in_vs. exact (P x e H). Qed.
Lemma B_twin x e : In e (B x) -> nb (twin e) = x /\ In (twin e) (B (nb e)).
Proof. intros H. apply in_B in H. destruct (rep_twins _ _ R _ _ H) as [H1 H2]. split; [exact H1|now apply in_B]. Qed.
Lemma B_loop x e : In e (B x) -> nb e <> x.
Proof. intros H. apply in_B in H. now apply NL. Qed.

Local Notation okes := (okes nb B).
Local Notation dart := (dart nb B).
Local Notation src := (src nb).
Section Cover.
Variable es : list Z.
Hypothesis O : okes es.
Hypothesis Cv : covers nb B es.
Lemma rt_all x : rt B es x = B x.
Proof. unfold rt. apply filter_same. intros d Hd. apply Cv. unfold PlanP.src. destruct (B_twin x d Hd) as [-> _]. exact Hd. Qed.
Lemma dart_arc d : dart es d <-> is_arc B d.
Proof.
  unfold PlanP.dart, is_arc. split; [intros [H _]; eauto|]. intros (v & Hv). destruct (B_twin v d Hv) as [E _].
  assert (In d (B (src d))) by (unfold PlanP.src; now rewrite E). auto.
Qed.
Lemma phi_face d : phi nb B es d = face_step g B d.
Proof. unfold phi, fstep, face_step. now rewrite rt_all. Qed.
Let arcs := concat (map B vs).
Lemma in_arcs d : In d arcs <-> is_arc B d.
Proof.
  unfold arcs, is_arc. rewrite in_concat. split.
  - intros (l & Hl & Hd). apply in_map_iff in Hl. destruct Hl as (x & <- & _). eauto.
  - intros (v & Hv). exists (B v). split; [apply in_map; eapply B_vs; eauto|auto].
Qed.
Lemma step_arc d : is_arc B d -> is_arc B (face_step g B d).
Proof.
  intros (v & Hv). destruct (B_twin v d Hv) as [_ H]. exists (nb d). unfold face_step. apply cnext_in; [apply B_nodup|exact H].
Qed.
Lemma step_inj a b : is_arc B a -> is_arc B b -> face_step g B a = face_step g B b -> a = b.
Proof.
  intros (v & Hv) (w & Hw) E. destruct (B_twin v a Hv) as [E1 H1], (B_twin w b Hw) as [E2 H2]. unfold face_step in E.
  assert (Q : nb a = nb b).
  { pose proof (cnext_in _ _ (B_nodup (nb a)) H1) as I1. pose proof (cnext_in _ _ (B_nodup (nb b)) H2) as I2. unfold nb in *. rewrite E in I1.
    destruct (B_twin _ _ I1) as [Q1 _], (B_twin _ _ I2) as [Q2 _]. congruence. }
  unfold nb in *. rewrite Q in *. apply cnext_inj in E; [now apply twin_eq_inj|apply B_nodup|auto|auto].
Qed.
Lemma cover_faces F : num_faces g B F -> exists FS, fsys nb B vs es FS /\ Z.of_nat (length FS) = F + num_isolated g B.
Proof.
  intros (rs & Nd & Hr & Hu & Hc & ->).
  destruct (choose (fun r l => fclosed (face_step g B) l /\ NoDup l /\ forall x, In x l <-> exists k, Nat.iter k (face_step g B) r = x) Z.eq_dec [] rs) as [lf Hl].
  { intros r Hi. apply (orbit_list _ arcs); [intros x; rewrite !in_arcs; apply step_arc|intros x y; rewrite !in_arcs; apply step_inj|apply in_arcs, Hr, Hi]. }
  set (n := length (filter (fun v => match B v with [] => true | _ => false end) vs)).
  exists (map lf rs ++ repeat [] n).
  assert (Cc : concat (map lf rs ++ repeat [] n) = concat (map lf rs)).
  { rewrite concat_app. replace (concat (repeat [] n)) with (@nil Z); [apply app_nil_r|]. generalize n. clear. induction n; cbn; auto. }
  split; [|rewrite app_length, map_length, repeat_length; unfold n, num_isolated; fold vs; lia].
  constructor.
  - rewrite Cc. clear Hc Cc n. induction rs as [|r rs IH]; [constructor|]. cbn [map concat]. apply NoDup_cons_iff in Nd. destruct Nd as [N1 N2].
    apply NoDup_app_intro.
    + apply (Hl r). now left.
    + apply IH; auto; intros; [apply Hr; now right|apply Hu; auto; now right|apply Hl; now right].
    + intros x H1 H2. apply in_concat in H2. destruct H2 as (l & Hl' & Hx). apply in_map_iff in Hl'. destruct Hl' as (r' & <- & Hr').
      apply (proj2 (proj2 (Hl r (or_introl eq_refl)))) in H1. apply (proj2 (proj2 (Hl r' (or_intror Hr')))) in Hx. destruct H1 as [k1 E1], Hx as [k2 E2].
      assert (Ar' : In r' arcs) by (apply in_arcs, Hr; now right).
      destruct (orbit_sym (face_step g B) arcs (fun x H => proj2 (in_arcs _) (step_arc x (proj1 (in_arcs x) H))) (fun x y H1 H2 => step_inj x y (proj1 (in_arcs x) H1) (proj1 (in_arcs y) H2)) r' x k2 Ar' E2) as [j Ej].
      apply N1. replace r with r'; [auto|]. symmetry. apply Hu; [now left|now right|]. exists (j + k1)%nat. rewrite iter_add, E1. exact Ej.
  - intros d. rewrite Cc, dart_arc, in_concat. split.
    + intros (l & Hl' & Hx). apply in_map_iff in Hl'. destruct Hl' as (r' & <- & Hr'). apply (Hl r' Hr') in Hx. destruct Hx as [k <-].
      apply in_arcs. apply iter_in; [intros x; rewrite !in_arcs; apply step_arc|apply in_arcs, Hr, Hr'].
    + intros Hd. destruct (Hc d Hd) as (r & Hr' & Hs). exists (lf r). split; [now apply in_map|]. now apply (Hl r Hr').
  - intros l Hl' Nl. apply in_app_iff in Hl'. destruct Hl' as [Hl'|Hl'].
    + apply in_map_iff in Hl'. destruct Hl' as (r & <- & Hr'). destruct (Hl r Hr') as [[_ C] _]. split; [auto|]. revert C. generalize (hd NIL (lf r)). generalize (lf r). clear Hl Nl.
      intros l q. induction l as [|d l IH]; [auto|]. cbn [fchain]. rewrite phi_face. intros [H1 H2]. auto.
    + apply repeat_spec in Hl'. congruence.
  - rewrite cnt_app. rewrite cnt_none.
    + assert (Z.of_nat n = cnt (fun x => nilb (rt B es x)) vs).
      { unfold n, cnt. f_equal. f_equal. apply filter_ext. intros x. rewrite rt_all. reflexivity. }
      rewrite <- H. clear. induction n as [|n IH]; [reflexivity|]. cbn [repeat]. rewrite cnt_cons. cbn [nilb]. lia.
    + intros l Hl'. apply in_map_iff in Hl'. destruct Hl' as (r & <- & Hr'). apply nilb_false. apply (Hl r Hr').
Qed.
Lemma conn_sym a b : connected g B a b -> connected g B b a.
Proof.
  assert (T : forall a b c, connected g B a b -> connected g B b c -> connected g B a c) by (intros a0 b0 c H1 H2; induction H2; [auto|econstructor; eauto]).
  induction 1 as [|v e H IH He]; [constructor|]. apply (T _ v); [|auto]. destruct (B_twin _ _ He) as [E I]. rewrite <- E. unfold nb. eapply conn_step; [constructor|exact I].
Qed.
Lemma conn_trans a b c : connected g B a b -> connected g B b c -> connected g B a c.
Proof. intros H1 H2. induction H2; [auto|econstructor; eauto]. Qed.
Lemma rep_conn l x : okes l -> connected g B (crep nb l x) x.
Proof.
  revert x. induction l as [|e l IH]; intros x Ol; [constructor|]. destruct Ol as (O1 & O2 & O3). cbn [crep].
  destruct (Z.eqb_spec (crep nb l x) (crep nb l (nb e))) as [E|E]; [|auto].
  apply (conn_trans _ (src e)); [auto|]. apply (conn_trans _ (nb e)).
  - unfold nb at 2. eapply conn_step; [constructor|exact O1].
  - apply (conn_trans _ (crep nb l x)); [rewrite E; now apply conn_sym, IH|auto].
Qed.
Lemma cover_comps C : num_components g B C -> comps nb vs es = C.
Proof.
  intros Hc. apply (num_classes_unique (primary g) (connected g B)); [intros; now apply conn_sym|intros a b c _; apply conn_trans| |exact Hc].
  exists (filter (fun x => crep nb es x =? x) vs). split; [apply NoDup_filter, vs_nodup|]. split; [intros r Hr; apply filter_In in Hr; now apply in_vs|].
  split; [|split; [|reflexivity]].
  - intros r r' H1 H2 H. apply filter_In in H1, H2. destruct H1 as [_ H1], H2 as [_ H2]. apply Z.eqb_eq in H1, H2. rewrite <- H1, <- H2. clear H1 H2.
    induction H as [|v e H IH He]; [reflexivity|]. rewrite IH. assert (D : dart es e) by (apply dart_arc; exists v; auto).
    pose proof (crep_dart nb B es e O D) as Q. unfold PlanP.src in Q. destruct (B_twin v e He) as [E _]. rewrite E in Q. exact Q.
  - intros x Hx. exists (crep nb es x). split; [|now apply rep_conn]. apply filter_In. split; [apply (crep_in nb B vs); try exact B_vs; try exact B_twin; try exact B_loop; try exact O; now apply in_vs|]. rewrite crep_idem. apply Z.eqb_refl.
Qed.
Lemma cover_edges : Z.of_nat (length es) = gM g.
Proof.
  assert (L1 : (length (es ++ map twin es) = length arcs)%nat).
  { assert (Nd : NoDup (es ++ map twin es)).
    { clear Cv. induction es as [|e l IH]; [constructor|]. destruct O as (O1 & O2 & O3). specialize (IH O3). cbn [map app].
      assert (K : ~ In e l /\ ~ In (twin e) l). { unfold kept in O2. apply orb_false_iff in O2. destruct O2 as [K1 K2]. split; now apply inl_false. }
      constructor.
      - rewrite in_app_iff. intros [H|[H|H]]; [tauto|exact (twin_ne e H)|]. apply in_map_iff in H. destruct H as (y & E & Hy). apply (proj2 K). rewrite <- E, twin2. auto.
      - apply NoDup_Add with (a := twin e) (l := l ++ map twin l); [apply Add_app|]. split; [exact IH|]. rewrite in_app_iff. intros [H|H]; [tauto|]. apply in_map_iff in H. destruct H as (y & E & Hy). apply twin_eq_inj in E. subst y. tauto. }
    assert (Na : NoDup arcs).
    { unfold arcs. generalize vs_nodup. generalize vs. intros l N. induction l as [|x l IH]; [constructor|]. apply NoDup_cons_iff in N. destruct N as [N1 N2]. cbn [map concat].
      apply NoDup_app_intro; [apply B_nodup|auto|]. intros d H1 H2. apply in_concat in H2. destruct H2 as (m & Hm & Hd). apply in_map_iff in Hm. destruct Hm as (y & <- & Hy).
      apply N1. destruct (B_twin _ _ H1) as [Q1 _], (B_twin _ _ Hd) as [Q2 _]. congruence. }
    assert (Eq : forall d, In d (es ++ map twin es) <-> In d arcs).
    { intros d. rewrite in_arcs, <- dart_arc, in_app_iff, in_map_iff. split.
      - intros [H|(y & <- & H)]; [|apply (dart_twin nb B); [exact B_twin|]]; apply (okes_dart nb B); auto.
      - intros [_ K]. apply kept_in in K. destruct K as [K|K]; [auto|]. right. exists (twin d). split; [apply twin2|auto]. }
    apply Nat.le_antisymm; apply NoDup_incl_length; auto; intros d; apply Eq. }
  assert (L2 : Z.of_nat (length arcs) = 2 * gM g).
  { rewrite <- (rep_sumdeg g adj R), sumdeg_flat. f_equal.
    assert (Ez : forall n, zrange 1 n = map Z.of_nat (seq 1 n)).
    { intros n. unfold zrange. rewrite <- seq_shift, map_map. apply map_ext. intros; lia. }
    assert (E2 : forall l, length (concat (map B l)) = length (flat_map adj l)).
    { induction l as [|x l IH]; [reflexivity|]. cbn. rewrite !app_length, IH. now rewrite (Permutation_length (Bp x)). }
    unfold arcs. rewrite E2. unfold vs. rewrite <- Ez. pose proof (st_N _ _ (rep_storage _ _ R)) as NN.
    replace (Z.to_nat (2 * gN g)) with (Z.to_nat (gN g) + Z.to_nat (gN g))%nat by lia.
    unfold zrange. rewrite seq_app, map_app, flat_map_app, app_length. 
    match goal with |- (?a = ?b + ?c)%nat => assert (c = 0)%nat; [|lia] end.
    assert (Q : forall l, (forall x, In x l -> adj x = []) -> length (flat_map adj l) = 0%nat).
    { induction l as [|x l IH]; intros H; [reflexivity|]. cbn [flat_map]. rewrite (H x (or_introl eq_refl)). apply IH. intros y Hy. apply H. now right. }
    apply Q. intros x Hx. destruct (adj x) as [|e m] eqn:Ea; [reflexivity|]. exfalso. assert (Hp : primary g x) by (apply (P x e); rewrite Ea; now left).
    apply in_map_iff in Hx. destruct Hx as (k & <- & Hk). apply in_seq in Hk. unfold primary in Hp. lia. }
  rewrite app_length, map_length in L1. lia.
Qed.
End Cover.
Theorem euler_full : full_planar nb B vs.
Proof.
  intros es O Cv. destruct Eu as (F & C & HF & HC & E). destruct (cover_faces es Cv F HF) as (FS & S & L). exists FS. split; [exact S|].
  unfold defect. rewrite (cover_comps es O Cv C HC), (cover_edges es O Cv), L. unfold vs. rewrite map_length, seq_length. pose proof (st_N _ _ (rep_storage _ _ R)). lia.
Qed.
End Euler.

Lemma path_joined nb B (E : Z -> Z -> Prop) L x y : (forall u w, E u w -> edge nb B u w) -> path_in E L x y -> joined nb B L x y.
Proof. intros H. induction 1; [now constructor|]. eapply jo_step; eauto. Qed.
Theorem planar_no_minor g adj : rep g adj -> primary_edges g adj -> (forall u e, In e (adj u) -> enbr g e <> u) -> planar_graph g adj ->
  ~ kuratowski (primary g) (adjacent g adj).
Proof.
  intros R P NL (B & Bp & Eu) K. pose proof (euler_full g adj B R P Bp Eu) as FP. revert FP.
  set (vs := map Z.of_nat (seq 1 (Z.to_nat (gN g)))).
  assert (Ed : forall u w, adjacent g adj u w -> edge (enbr g) B u w) by (intros u w (e & He & E); exists e; split; [now apply (in_B adj B Bp)|auto]).
  assert (Cn : forall L, conn_set (adjacent g adj) L -> (forall x, In x L -> primary g x) -> cset (enbr g) B vs L).
  { intros L [N C] V. split; [auto|]. split; [intros x Hx; apply in_vs; auto|]. intros x y Hx Hy. eapply path_joined; eauto. }
  assert (Tc : forall A A', touching (adjacent g adj) A A' -> touch (enbr g) B A A') by (intros A A' (x & y & H1 & H2 & H3); exists x, y; auto).
  destruct K as [(S & C & D & T)|(S & C & D & T)].
  - apply (no_K5 (enbr g) B vs) with (BL := S); auto; try (intros; eapply B_nodup; eauto; fail); try (intros; eapply B_vs; eauto; fail); try (intros; eapply B_twin; eauto; fail); try (intros; eapply B_loop; eauto; fail).
    + apply vs_nodup.
    + intros i Hi. destruct (C i Hi). auto.
  - apply (no_K33 (enbr g) B vs) with (BL := S); auto; try (intros; eapply B_nodup; eauto; fail); try (intros; eapply B_vs; eauto; fail); try (intros; eapply B_twin; eauto; fail); try (intros; eapply B_loop; eauto; fail).
    + apply vs_nodup.
    + intros i Hi. destruct (C i Hi). auto.
Qed.

(** ** A planar embedding, its vertices renumbered, shows that the graph is planar *)
Section Renumber.
Variables (g : graph) (adj : Z -> list Z) (h : graph) (A : Z -> list Z).
Hypothesis R : rep g adj.
Hypothesis P : primary_edges g adj.
Hypothesis PE : planar_embedding g adj h A.
Let vs := map Z.of_nat (seq 1 (Z.to_nat (gN g))).
Definition relist (x : Z) : list Z := match find (fun v => vindex h v =? x) vs with Some v => A v | None => [] end.
Lemma relist_at v : primary g v -> relist (vindex h v) = A v.
Proof.
  intros Hv. unfold relist. destruct (find (fun u => vindex h u =? vindex h v) vs) as [u|] eqn:E.
  - apply find_some in E. destruct E as [Hu E]. apply in_vs in Hu. f_equal. apply (pe_inj _ _ _ _ PE); auto. lia.
  - apply find_none with (x := v) in E; [lia|now apply in_vs].
Qed.
Lemma relist_out x : ~ primary g x -> relist x = [].
Proof.
  intros Hx. unfold relist. destruct (find (fun u => vindex h u =? x) vs) as [u|] eqn:E; [|reflexivity].
  apply find_some in E. destruct E as [Hu E]. apply in_vs in Hu. elim Hx. apply Z.eqb_eq in E. rewrite <- E. now apply (pe_range _ _ _ _ PE).
Qed.
Lemma relist_sur x : primary g x -> exists v, primary g v /\ vindex h v = x.
Proof.
  intros Hx. destruct (num_surj h) with (x := x) as (u & H1 & H2).
  - split; [intros u Hu; unfold primary; rewrite (pe_N _ _ _ _ PE); apply (pe_range _ _ _ _ PE); unfold primary in *; rewrite (pe_N _ _ _ _ PE) in Hu; exact Hu|].
    intros u w Hu Hw; apply (pe_inj _ _ _ _ PE); unfold primary in *; rewrite (pe_N _ _ _ _ PE) in *; auto.
  - unfold primary. now rewrite (pe_N _ _ _ _ PE).
  - exists u. split; [unfold primary in *; rewrite (pe_N _ _ _ _ PE) in H1; exact H1|exact H2].
Qed.
Lemma relist_perm v : Permutation (relist v) (adj v).
Proof.
  destruct (Z_le_dec 1 v) as [H1|H1]; [destruct (Z_le_dec v (gN g)) as [H2|H2]|].
  2,3: rewrite relist_out by (unfold primary; lia); destruct (adj v) as [|e l] eqn:E; [constructor|]; exfalso; destruct (P v e); [rewrite E; now left|lia].
  destruct (relist_sur v (conj H1 H2)) as (u & Hu & <-). rewrite relist_at by auto.
  apply NoDup_Permutation; [apply (ch_nodup _ _ (rep_chains _ _ (pe_rep _ _ _ _ PE)))|apply (ch_nodup _ _ (rep_chains _ _ R))|]. intros e. now apply (pe_arcs _ _ _ _ PE).
Qed.
Lemma relist_arc d : is_arc relist d <-> is_arc A d.
Proof.
  split; intros (v & Hv).
  - destruct (Z_le_dec 1 v) as [H1|H1]; [destruct (Z_le_dec v (gN g)) as [H2|H2]|].
    2,3: rewrite relist_out in Hv by (unfold primary; lia); destruct Hv.
    destruct (relist_sur v (conj H1 H2)) as (u & Hu & <-). rewrite relist_at in Hv by auto. now exists u.
  - exists (vindex h v). rewrite relist_at; [auto|]. destruct (pe_primary _ _ _ _ PE v d Hv) as [H1 H2]. rewrite (pe_N _ _ _ _ PE) in H2. split; auto.
Qed.
Lemma hprim x e : In e (A x) -> primary g x /\ primary g (enbr h e).
Proof.
  intros H. destruct (pe_primary _ _ _ _ PE x e H) as [H1 H2]. rewrite (pe_N _ _ _ _ PE) in H2. split; [split; auto|].
  destruct (rep_twins _ _ (pe_rep _ _ _ _ PE) _ _ H) as [_ T]. destruct (pe_primary _ _ _ _ PE _ _ T) as [H3 H4]. rewrite (pe_N _ _ _ _ PE) in H4. split; auto.
Qed.
Lemma relist_step d : is_arc A d -> face_step g relist d = face_step h A d.
Proof. intros (v & Hv). unfold face_step. rewrite <- (pe_ends _ _ _ _ PE v d Hv). rewrite relist_at; [reflexivity|]. now apply (hprim v d). Qed.
Lemma step_A d : is_arc A d -> is_arc A (face_step h A d).
Proof.
  intros (v & Hv). destruct (rep_twins _ _ (pe_rep _ _ _ _ PE) _ _ Hv) as [_ T]. exists (enbr h d). unfold face_step.
  apply cnext_in; [apply (ch_nodup _ _ (rep_chains _ _ (pe_rep _ _ _ _ PE)))|exact T].
Qed.
Lemma relist_iter k d : is_arc A d -> Nat.iter k (face_step g relist) d = Nat.iter k (face_step h A) d /\ is_arc A (Nat.iter k (face_step h A) d).
Proof. intros H. induction k as [|k [I1 I2]]; [auto|]. rewrite !iter_S, I1. split; [now apply relist_step|now apply step_A]. Qed.
Lemma relist_conn a b : primary g a -> connected h A a b -> connected g relist (vindex h a) (vindex h b).
Proof.
  intros Ha H. induction H as [|v e H IH He]; [constructor|]. rewrite (pe_ends _ _ _ _ PE v e He). apply conn_step with (v := vindex h v); [exact IH|].
  rewrite relist_at; [exact He|now apply (hprim v e)].
Qed.
Lemma relist_conn' a y : connected g relist (vindex h a) y -> primary g a -> exists b, primary g b /\ y = vindex h b /\ connected h A a b.
Proof.
  intros H Ha. induction H as [|v e H (b & Hb & -> & C) He]; [exists a; split; [auto|split; [auto|constructor]]|].
  rewrite relist_at in He by auto. exists (enbr h e). split; [now apply (hprim b e)|]. split; [symmetry; now apply (pe_ends _ _ _ _ PE b e)|]. now apply conn_step with (v := b).
Qed.
Lemma relist_euler : euler g relist.
Proof.
  destruct (pe_euler _ _ _ _ PE) as (F & C & HF & HC & E). exists F, C.
  assert (Pn : forall v, primary h v <-> primary g v) by (intros v; unfold primary; now rewrite (pe_N _ _ _ _ PE)).
  split; [|split].
  - destruct HF as (rs & Nd & H1 & H2 & H3 & ->). exists rs. split; [auto|]. split; [intros r Hr; apply relist_arc; auto|]. split; [|split; [|reflexivity]].
    + intros r r' Hr Hr' (k & Ek). apply H2; auto. exists k. rewrite <- Ek. symmetry. now apply relist_iter, H1.
    + intros x Hx. apply relist_arc in Hx. destruct (H3 x Hx) as (r & Hr & k & Ek). exists r. split; [auto|]. exists k. rewrite <- Ek. now apply relist_iter, H1.
  - destruct HC as (rs & Nd & H1 & H2 & H3 & ->). exists (map (vindex h) rs). split; [|split; [|split; [|split; [|now rewrite map_length]]]].
    + clear H2 H3 E. induction rs as [|r rs IH]; [constructor|]. apply NoDup_cons_iff in Nd. destruct Nd as [N1 N2]. cbn. constructor; [|apply IH; auto; intros; apply H1; now right].
      intros H. apply in_map_iff in H. destruct H as (q & Eq & Hq). apply (pe_inj _ _ _ _ PE) in Eq; [subst; auto| |]; apply Pn, H1; [now right|now left].
    + intros r Hr. apply in_map_iff in Hr. destruct Hr as (q & <- & Hq). apply (pe_range _ _ _ _ PE), Pn, H1, Hq.
    + intros r r' Hr Hr' Cn. apply in_map_iff in Hr. destruct Hr as (q & <- & Hq). apply in_map_iff in Hr'. destruct Hr' as (q' & <- & Hq').
      destruct (relist_conn' q _ Cn (proj1 (Pn q) (H1 q Hq))) as (b & Hb & Eb & Cb). apply (pe_inj _ _ _ _ PE) in Eb; [|apply Pn, H1, Hq'|auto]. subst b. f_equal. auto.
    + intros x Hx. destruct (relist_sur x Hx) as (u & Hu & <-). destruct (H3 u (proj2 (Pn u) Hu)) as (r & Hr & Cr). exists (vindex h r). split; [now apply in_map|]. apply relist_conn; [now apply Pn, H1|auto].
  - rewrite <- (pe_N _ _ _ _ PE), <- (pe_M _ _ _ _ PE), <- E. f_equal. f_equal. unfold num_isolated. rewrite (pe_N _ _ _ _ PE). fold vs. f_equal.
    set (f := fun v : Z => match A v with [] => true | _ => false end). set (f' := fun v : Z => match relist v with [] => true | _ => false end).
    transitivity (length (map (vindex h) (filter f vs))); [|apply map_length].
    assert (I : forall x, In x (map (vindex h) (filter f vs)) <-> In x (filter f' vs)).
    { intros x. rewrite in_map_iff, filter_In. split.
      - intros (v & <- & H). apply filter_In in H. destruct H as [H Hf]. apply in_vs in H. split; [apply in_vs, (pe_range _ _ _ _ PE), H|]. unfold f'. rewrite relist_at by auto. exact Hf.
      - intros [H Hf]. apply in_vs in H. destruct (relist_sur x H) as (u & Hu & <-). exists u. split; [auto|]. apply filter_In. split; [now apply in_vs|]. unfold f' in Hf. rewrite relist_at in Hf by auto. exact Hf. }
    assert (N1 : NoDup (filter f' vs)) by apply NoDup_filter, vs_nodup.
    assert (N2 : NoDup (map (vindex h) (filter f vs))).
    { assert (Hv : forall v, In v (filter f vs) -> primary g v) by (intros v H; apply filter_In in H; now apply in_vs). assert (Nf : NoDup (filter f vs)) by apply NoDup_filter, vs_nodup.
      revert Hv Nf. generalize (filter f vs). intros l Hv Nl. induction l as [|r l IH]; [constructor|]. apply NoDup_cons_iff in Nl. destruct Nl as [M1 M2]. cbn. constructor; [|apply IH; auto; intros; apply Hv; now right].
      intros H. apply in_map_iff in H. destruct H as (q & Eq & Hq). apply (pe_inj _ _ _ _ PE) in Eq; [subst; auto| |]; apply Hv; [now right|now left]. }
    apply Nat.le_antisymm; apply NoDup_incl_length; auto; intros x; apply I.
Qed.
Theorem embedding_planar : planar_graph g adj.
Proof. exists relist. split; [exact relist_perm|exact relist_euler]. Qed.
End Renumber.
