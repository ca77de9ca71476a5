(** * SortEP: what the embedder leaves, put back in the original order of the vertices. *)
From Coq Require Import ZifyBool Permutation.
From Verif Require Import Base BaseP GraphRec GraphM GraphSpec GraphP GraphP2 GraphP3 DFSM DFSSpec DFSP DFSP3 DFSP4 TestSpec TestP TestP3 EmbedSpec ObsSpec PlanSpec OutSpec PlanDec PlanP PlanE SubdP OrbitP FaceP EmbEuler TestP5 DFSP2 EndSpec.

Lemma conn_ext g (B B' : Z -> list Z) a b : (forall v, B v = B' v) -> connected g B a b -> connected g B' a b.
Proof. intros E. induction 1 as [|w e _ IH He]; [constructor|]. apply conn_step with w; [auto|now rewrite <- E]. Qed.
Lemma face_ext g (B B' : Z -> list Z) a b : (forall v, B v = B' v) -> same_face g B a b -> same_face g B' a b.
Proof. intros E (k & <-). exists k. induction k as [|k IH]; [reflexivity|]. rewrite !iter_S, IH. unfold face_step. now rewrite E. Qed.
Lemma euler_ext g (B B' : Z -> list Z) : (forall v, B v = B' v) -> euler g B -> euler g B'.
Proof.
  intros E (F & C & HF & HC & Eq). assert (E' : forall v, B' v = B v) by auto. exists F, C. split; [|split].
  - eapply num_classes_mono; [| |exact HF]; [intros x; split; intros (v & Hv); exists v; [rewrite <- E|rewrite E]; auto|]. intros x y; split; apply face_ext; auto.
  - eapply num_classes_mono; [reflexivity| |exact HC]. intros x y; split; apply conn_ext; auto.
  - rewrite <- Eq. unfold num_isolated. do 3 f_equal. f_equal. clear - E'. induction (map Z.of_nat (seq 1 (Z.to_nat (gN g)))) as [|v l IH]; cbn [filter]; [auto|]. now rewrite E', IH.
Qed.

Lemma outer_ext g (B B' : Z -> list Z) : (forall v, B v = B' v) -> outer_rotations g B -> outer_rotations g B'.
Proof.
  intros E H r Hr. destruct (H r Hr) as (a & Ha). exists a. intros v Cv Nv. rewrite <- E in Nv. destruct (Ha v) as (b & Sb & Ib); [apply (conn_ext g B' B); auto|auto|].
  exists b. split; [now apply (face_ext g B B')|now rewrite <- E].
Qed.
Lemma relist_outer g adj h A : rep g adj -> primary_edges g adj -> planar_embedding g adj h A -> one_root_each h A -> all_outer h A -> outer_rotations g (relist g h A).
Proof.
  intros R P PE Ro AO r Hr. destruct (relist_sur g adj h A PE r Hr) as (u & Hu & <-).
  assert (Pn : forall v, primary h v <-> primary g v) by (intros v; unfold primary; now rewrite (pe_N _ _ _ _ PE)).
  destruct (Ro u (proj2 (Pn u) Hu)) as (r0 & Hr0 & Pr0 & Cr0 & Ur0).
  pose proof (pe_rep _ _ _ _ PE) as Rh.
  assert (Cs : forall a b, connected h A a b -> connected h A b a) by (intros a b; apply (conn_sym h A A Rh); intros; apply Permutation_refl).
  exists (hd NIL (A r0)). intros v Cv Nv. destruct (relist_conn' g adj h A PE u v Cv Hu) as (w & Hw & -> & Cw). rewrite (relist_at g adj h A PE) in * by auto.
  destruct (AO w (proj2 (Pn w) Hw)) as (r1 & Hr1 & Pr1 & F1).
  assert (Cf : forall k a x, In a (A x) -> exists y, In (Nat.iter k (face_step h A) a) (A y) /\ connected h A x y).
  { induction k as [|k IH]; intros a x Ha; [exists x; split; [exact Ha|constructor]|]. destruct (IH a x Ha) as (y & H1 & H2). rewrite iter_S. exists (enbr h (Nat.iter k (face_step h A) a)). split; [|now apply conn_step with (v := y)].
    unfold face_step at 1. apply cnext_in; [apply (ch_nodup _ _ (rep_chains _ _ Rh))|]. apply (rep_twins _ _ Rh _ _ H1). }
  assert (C1 : connected h A r1 w).
  { unfold on_first_face in F1. destruct (A r1) as [|a l] eqn:Ea; [subst w; constructor|]. destruct F1 as (b & (k & Ek) & Hb). destruct (Cf k a r1) as (y & H1 & H2); [rewrite Ea; now left|].
    rewrite Ek in H1. rewrite (ch_disj _ _ (rep_chains _ _ Rh) _ _ _ Hb H1). exact H2. }
  assert (E10 : r1 = r0). { apply Ur0; auto. apply (conn_trans h A r1 w); [exact C1|]. now apply Cs. }
  subst r1. unfold on_first_face in F1. destruct (A r0) as [|a l] eqn:Ea.
  - subst w. congruence.
  - destruct F1 as (b & (k & Ek) & Hb). exists b. split; [|exact Hb]. exists k. cbn [hd]. rewrite <- Ek. apply (relist_iter g adj h A PE). exists r0. rewrite Ea. now left.
Qed.

(** ** Subdivisions under renumbering *)
Section Ren.
Variables (h k : graph) (A B : Z -> list Z) (f : Z -> Z).
Hypotheses (R : rep h A) (P : primary_edges h A) (Pk : primary_edges k B).
Hypothesis Fi : forall v w, primary h v -> primary h w -> f v = f w -> v = w.
Hypothesis Fs : forall x, primary k x -> exists v, primary h v /\ f v = x.
Hypothesis HB : forall v, primary h v -> B (f v) = A v.
Hypothesis HE : forall v e, In e (A v) -> enbr k e = f (enbr h e).
Lemma ren_arc e : is_arc B e -> is_arc A e.
Proof. intros (v & Hv). destruct (Fs v (Pk v e Hv)) as (u & Hu & <-). rewrite HB in Hv by auto. now exists u. Qed.
Lemma ren_path p : forall u v, path h A u p v -> path k B (f u) p (f v) /\ internals k p = map f (internals h p).
Proof.
  induction p as [|e p IH]; intros u v; cbn [path]; [intros ->; auto|]. intros [He Hp]. destruct (IH _ _ Hp) as [I1 I2].
  rewrite (HE u e He). split; [split; [rewrite HB; [auto|exact (P u e He)]|exact I1]|].
  destruct p as [|e' p]; [reflexivity|]. unfold internals in *. cbn [removelast map] in *. rewrite (HE u e He). f_equal. exact I2.
Qed.
Lemma nodup_map_on l : (forall x, In x l -> primary h x) -> NoDup l -> NoDup (map f l).
Proof.
  intros H Nd. induction Nd as [|x l Nx Nd IH]; cbn [map]; constructor; [|apply IH; intros; apply H; now right].
  intros Q. apply in_map_iff in Q. destruct Q as (y & E & Iy). apply Fi in E; [subst; auto| |]; apply H; [now right|now left].
Qed.
Lemma ren_subdivision cs E : subdivision h A cs E -> (forall u v, In (u, v) E -> In u cs /\ In v cs /\ u <> v) -> (forall c, In c cs -> exists uv, In uv E /\ (fst uv = c \/ snd uv = c)) ->
  subdivision k B (map f cs) (map (fun uv => (f (fst uv), f (snd uv))) E).
Proof.
  intros (paths & F & Nd & Cv) HEc Hc. exists paths.
  assert (Fp : Forall (fun p => internals k p = map f (internals h p) /\ forall x, In x (internals h p) -> primary h x) paths).
  { clear - F R P HE HB. induction F as [|uv p E' ps H F IH]; constructor; [|auto]. split; [now apply (ren_path p _ _ H)|]. intros x Hx. exact (path_prim h A R P p _ _ x H Hx). }
  assert (Ef : flat_map (internals k) paths = map f (flat_map (internals h) paths)) by (clear - Fp; induction Fp as [|p ps [E _] _ IH]; cbn [flat_map]; [auto|now rewrite map_app, E, IH]).
  split; [|split].
  - clear - F P HE HB. induction F as [|uv p E' ps H F IH]; cbn [map]; constructor; [exact (proj1 (ren_path p _ _ H))|auto].
  - rewrite Ef, <- map_app. apply nodup_map_on; [|exact Nd]. intros x Hx. apply in_app_iff in Hx. destruct Hx as [Hx|Hx].
    + destruct (Hc x Hx) as ([u v] & Huv & Hx'). destruct (HEc u v Huv) as (_ & _ & Ne).
      assert (K : exists p, path h A u p v) by (clear - F Huv; induction F as [|uv p E' ps H F IH]; [destruct Huv|destruct Huv as [->|Huv]; [exists p; exact H|auto]]).
      destruct K as (p & Hp). cbn [fst snd] in Hx'. destruct Hx' as [<-|<-].
      * destruct p as [|e p]; [cbn in Hp; contradiction|]. destruct Hp as [He _]. exact (P u e He).
      * destruct (path_last h A p u v Hp Ne) as (y & _ & Ay). apply (adj_prim h A R P y v Ay).
    + apply in_flat_map in Hx. destruct Hx as (p & Ip & Hx). rewrite Forall_forall in Fp. now apply (proj2 (Fp p Ip)).
  - intros e He. now apply Cv, ren_arc.
Qed.
Lemma all_pairs_map l : all_pairs (map f l) = map (fun uv => (f (fst uv), f (snd uv))) (all_pairs l).
Proof. induction l as [|x l IH]; cbn [map all_pairs]; [auto|]. rewrite map_app, IH, !map_map. reflexivity. Qed.
Lemma list_prod_map l m : list_prod (map f l) (map f m) = map (fun uv => (f (fst uv), f (snd uv))) (list_prod l m).
Proof. induction l as [|x l IH]; cbn [map list_prod]; [auto|]. rewrite map_app, IH, !map_map. reflexivity. Qed.
Lemma nodup_front (l m : list Z) : NoDup (l ++ m) -> NoDup l.
Proof. intros Nd. induction l as [|y l IH]; [constructor|]. cbn [app] in Nd. apply NoDup_cons_iff in Nd. constructor; [intros Q; apply (proj1 Nd), in_app_iff; auto|apply IH, Nd]. Qed.
Lemma ren_complete n : (2 <= n)%nat -> complete_subdivision h A n -> complete_subdivision k B n.
Proof.
  intros Hn (cs & Len & Sb). exists (map f cs). split; [now rewrite map_length|]. rewrite all_pairs_map.
  assert (Nd : NoDup cs) by (destruct Sb as (ps & _ & Nd & _); exact (nodup_front _ _ Nd)). destruct (all_pairs_in cs Nd) as [I1 I2]. apply ren_subdivision; auto.
  intros c Ic. apply (In_nth _ _ 0) in Ic. destruct Ic as (i & Li & <-). destruct i as [|i]; [exists (nth 0 cs 0, nth 1 cs 0); split; [apply I2; lia|auto]|exists (nth 0 cs 0, nth (Datatypes.S i) cs 0); split; [apply I2; lia|auto]].
Qed.
Lemma ren_bipartite m n : (1 <= m)%nat -> (1 <= n)%nat -> bipartite_subdivision h A m n -> bipartite_subdivision k B m n.
Proof.
  intros Hm Hn (a & b & La & Lb & Sb). exists (map f a), (map f b). split; [now rewrite map_length|]. split; [now rewrite map_length|]. rewrite list_prod_map, <- map_app.
  assert (Nd : NoDup (a ++ b)) by (destruct Sb as (ps & _ & Nd & _); exact (nodup_front _ _ Nd)). apply ren_subdivision; auto.
  - intros u v H. apply in_prod_iff in H. destruct H as [H1 H2]. rewrite !in_app_iff. split; [auto|]. split; [auto|]. intros ->. apply in_split in H1. destruct H1 as (x & y & ->). rewrite <- app_assoc in Nd. apply NoDup_remove_2 in Nd. apply Nd. rewrite !in_app_iff. auto.
  - intros c Hc. apply in_app_iff in Hc. destruct Hc as [Hc|Hc].
    + destruct b as [|y b']; [cbn [length] in Lb; lia|]. exists (c, y). split; [apply in_prod; [auto|now left]|auto].
    + destruct a as [|y a']; [cbn [length] in La; lia|]. exists (y, c). split; [apply in_prod; [now left|auto]|auto].
Qed.
End Ren.

(** ** Sorting what gp_Embed leaves *)
Lemma flags_searched x : Z.land (Z.lxor (Z.lor x FLAGS_DFSNUMBERED) FLAGS_SORTEDBYDFI) FLAGS_DFSNUMBERED <> 0.
Proof.
  intros Q. apply (f_equal (fun z => Z.testbit z 0)) in Q. rewrite Z.land_spec, Z.lxor_spec, Z.lor_spec in Q.
  change (Z.testbit FLAGS_DFSNUMBERED 0) with true in Q. change (Z.testbit FLAGS_SORTEDBYDFI 0) with false in Q. rewrite orb_true_r in Q. discriminate.
Qed.
Lemma sort_back g h A : rep h A -> primary_edges h A -> gN h = gN g ->
  (forall v, primary g v -> primary g (vindex h v)) -> (forall v w, primary g v -> primary g w -> vindex h v = vindex h w -> v = w) ->
  giflags h = Z.lxor (Z.lor (giflags g) FLAGS_DFSNUMBERED) FLAGS_SORTEDBYDFI -> (forall v, primary h v -> par h v <> NIL -> primary h (par h v)) ->
  exists k B, gp_SortVertices h = Ret (k, C_OK) /\ rep k B /\ primary_edges k B /\ gN k = gN h /\ gM k = gM h /\
    (forall v, primary h v -> B (vindex h v) = A v) /\ (forall v e, In e (A v) -> enbr k e = vindex h (enbr h e)) /\
    (forall v, primary h v -> vindex k (vindex h v) = v) /\ giflags k = Z.lor (giflags g) FLAGS_DFSNUMBERED.
Proof.
  intros R P N Ix Inj Fl Pa. assert (Pn : forall v, primary h v <-> primary g v) by (intros v; unfold primary; now rewrite N).
  destruct (sort_ok h A R P) as (k & B & H1 & H2 & H3 & H4 & H5 & H6).
  - unfold searched. rewrite Fl. apply flags_searched.
  - split; [intros v Hv; apply Pn, Ix, Pn, Hv|intros v w Hv Hw; apply Inj; now apply Pn].
  - exact Pa.
  - exists k, B. split; [exact H1|]. split; [exact H4|]. split; [exact H5|]. split; [exact (rl_N _ _ _ H2)|]. split; [exact (rl_M _ _ _ H2)|]. split; [exact H6|]. split; [|split; [exact (rl_back _ _ _ H2)|rewrite H3, Fl, Z.lxor_assoc, Z.lxor_nilpotent, Z.lxor_0_r; reflexivity]].
    intros v e He. destruct (rep_twins _ _ R v e He) as [_ T]. pose proof (P _ _ T) as Q.
    rewrite (rl_enbr _ _ _ H2); [|exact (st_used _ _ (rep_storage _ _ R) v e He)]. destruct (enbr h e =? NIL) eqn:Z0; [|reflexivity]. apply Z.eqb_eq in Z0. rewrite Z0 in Q. destruct Q. unfold NIL in *. lia.
Qed.
