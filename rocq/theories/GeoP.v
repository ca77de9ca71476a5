(** * GeoP: the partial embedding kept by the edge addition method, apart from the code: every
    biconnected component under construction is a planar system with one distinguished (external)
    face, on which its root and the listed vertices lie in the order given by the external face
    links. *)
From Coq Require Import ZifyBool Permutation.
From Verif Require Import Base BaseP GraphRec GraphM GraphSpec LinkP EmbP DFSSpec TestSpec TestP TestP3 FaceP.

(** nb, fl: far end and flags of arcs; e0, e1: external face links; adj: arcs in list order;
    o: does the list read backwards?; X: listed external vertices of a root; B: root of the
    component of a primary vertex. *)
Record gv := mkGV { nb : Z -> Z; fl : Z -> Z; e0 : Z -> Z; e1 : Z -> Z; adj : Z -> list Z;
                    o : Z -> bool; X : Z -> list Z; B : Z -> Z }.
Definition rot (s : gv) (x : Z) : list Z := if o s x then rev (adj s x) else adj s x.
Definition en (s : gv) (x : Z) : Z := if o s x then e1 s x else e0 s x.
Definition ep (s : gv) (x : Z) : Z := if o s x then e0 s x else e1 s x.
Definition childarc (s : gv) (e : Z) : Prop := Z.land (fl s e) EDGE_TYPE_MASK = EDGE_TYPE_CHILD.
Definition invarc (s : gv) (e : Z) : bool := negb (Z.land (fl s e) EDGEFLAG_INVERTED_MASK =? 0).

Definition starts (s : gv) (x : Z) (l : list Z) : Prop := l <> [] /\ hd NIL l = hd NIL (rot s x).

Section Geo.
Variables (N : Z) (p : Z -> Z).
Definition prim (x : Z) : Prop := 1 <= x <= N.
Definition mem (s : gv) (R : Z) : list Z := filter (fun z => B s z =? R) (zrange 1 (Z.to_nat N)).
Definition vsof (s : gv) (R : Z) : list Z := R :: mem s R.
Definition isroot (R : Z) : Prop := N < R <= 2 * N.

Record half (s : gv) (R : Z) (xs pre : list Z) (segs FS : list (list Z)) : Prop := {
  h_pc : pc (nb s) (rot s) (vsof s R) ((pre ++ concat segs) :: FS);
  h_pre : starts s R pre;
  h_segs : Forall2 (starts s) xs segs;
  h_linked : linked (en s) (ep s) (ep s (hd NIL xs)) xs R;
  h_last : ep s R = last xs NIL;
  h_ne : xs <> [];
  h_nodup : NoDup xs;
  h_in : forall x, In x xs -> prim x /\ B s x = R;
  h_arcs : forall x, In x (vsof s R) -> adj s x <> [] }.
Definition halfopen (s : gv) (R : Z) (xs : list Z) : Prop := exists pre segs FS, half s R xs pre segs FS.
Record full (s : gv) (R : Z) : Prop := {
  f_half : halfopen s R (X s R);
  f_en : en s R = hd NIL (X s R);
  f_ep : ep s (hd NIL (X s R)) = R;
  f_one : length (X s R) = 1%nat -> o s (hd NIL (X s R)) = o s R }.

(** Arcs, orientations and the tree arcs fit together. *)
Record geob (s : gv) : Prop := {
  g_twins : forall v e, In e (adj s v) -> nb s (twin e) = v /\ In (twin e) (adj s (nb s e));
  g_nodup : forall v, NoDup (adj s v);
  g_disj : forall v w e, In e (adj s v) -> In e (adj s w) -> v = w;
  g_range : forall v e, In e (adj s v) -> 2 <= e;
  g_out : forall v e, In e (adj s v) -> 1 <= v <= 2 * N;
  g_B1 : forall z, prim z -> p z <> NIL -> adj s (N + z) <> [] -> B s z = N + z;
  g_B2 : forall z, prim z -> p z <> NIL -> adj s (N + z) = [] -> B s z = B s (p z) /\ p (p z) <> NIL;
  g_B0 : forall z, prim z -> p z = NIL -> B s z = NIL /\ adj s z = [] /\ adj s (N + z) = [];
  g_sign : forall x e, In e (adj s x) -> childarc s e -> o s (nb s e) = xorb (o s x) (invarc s e);
  g_child : forall z, prim z -> p z <> NIL ->
     exists e, childarc s e /\ nb s e = z /\ In e (adj s (match adj s (N + z) with [] => p z | _ => N + z end));
  g_childu : forall x e, In e (adj s x) -> childarc s e ->
     let z := nb s e in prim z /\ p z <> NIL /\ (x = N + z \/ x = p z);
  g_childq : forall x y e e', In e (adj s x) -> In e' (adj s y) -> childarc s e -> childarc s e' -> nb s e = nb s e' -> e = e' }.
(** All components are complete, except that the one of C has only the external vertices xs
    properly linked. *)
Record geo (C : Z) (xs : list Z) (s : gv) : Prop := {
  g_base : geob s;
  g_full : forall R, isroot R -> adj s R <> [] -> R <> C -> full s R;
  g_half : isroot C -> halfopen s C xs }.

Hypothesis Hp : forall z, prim z -> p z <> NIL -> prim (p z) /\ p z < z.

Lemma in_rot s x e : In e (rot s x) <-> In e (adj s x).
Proof. unfold rot. destruct (o s x); [|tauto]. symmetry. apply in_rev. Qed.
Lemma rot_ne s x : rot s x <> [] <-> adj s x <> [].
Proof.
  unfold rot. destruct (o s x); [|tauto]. split; intros H E; apply H.
  - now rewrite E.
  - rewrite <- (rev_involutive (adj s x)), E. reflexivity.
Qed.
Lemma rot_nodup s x : NoDup (rot s x) <-> NoDup (adj s x).
Proof.
  unfold rot. destruct (o s x); [|tauto]. split; intros H; [|now apply NoDup_rev].
  rewrite <- (rev_involutive (adj s x)). now apply NoDup_rev.
Qed.
Lemma in_mem s R z : In z (mem s R) <-> prim z /\ B s z = R.
Proof. unfold mem. rewrite filter_In, in_zrange, Z.eqb_eq. unfold prim. split; intros [H1 H2]; split; auto; lia. Qed.
Lemma mem_nodup s R : NoDup (mem s R).
Proof. apply NoDup_filter, NoDup_zrange. Qed.
Lemma in_vsof s R x : In x (vsof s R) <-> x = R \/ (prim x /\ B s x = R).
Proof. unfold vsof. cbn [In]. rewrite in_mem. split; intros [H|H]; auto. Qed.
Lemma vsof_nodup s R : isroot R -> NoDup (vsof s R).
Proof. intros H. constructor; [|apply mem_nodup]. rewrite in_mem. unfold prim, isroot in *. lia. Qed.

(** Where a vertex belongs. *)
Lemma B_spec C xs s z : geo C xs s -> prim z -> p z <> NIL ->
  exists c, B s z = N + c /\ prim c /\ p c <> NIL /\ adj s (N + c) <> [] /\ ancestor p c z.
Proof.
  intros G. remember (Z.to_nat z) as n eqn:E. revert z E.
  induction n as [n IH] using lt_wf_ind. intros z -> Hz Hpz.
  destruct (adj s (N + z)) as [|a l] eqn:Ea.
  - destruct (g_B2 _ (g_base _ _ _ G) z Hz Hpz Ea) as [H1 H2]. destruct (Hp z Hz Hpz) as [Hq Hlt].
    destruct (IH (Z.to_nat (p z)) ltac:(unfold prim in *; lia) (p z) eq_refl Hq H2) as (c & C1 & C2 & C3 & C4 & C5).
    exists c. rewrite H1. do 4 (split; [auto|]). now constructor 2.
  - exists z. assert (Na : adj s (N + z) <> []) by (rewrite Ea; discriminate).
    split; [now apply (g_B1 _ (g_base _ _ _ G))|]. do 3 (split; [auto|]). constructor.
Qed.
Lemma B_root C xs s z : geo C xs s -> prim z -> p z <> NIL -> isroot (B s z) /\ adj s (B s z) <> [].
Proof.
  intros G Hz Hq. destruct (B_spec _ _ _ _ G Hz Hq) as (c & C1 & C2 & C3 & C4 & C5). rewrite C1.
  unfold isroot, prim in *. split; [lia|auto].
Qed.
(** Arcs stay within a component. *)
Lemma arc_comp C xs s R x e : geo C xs s -> isroot R -> adj s R <> [] -> In x (vsof s R) -> In e (adj s x) ->
  In (nb s e) (vsof s R).
Proof.
  intros G HR NR Hx He. assert (K : exists ys, halfopen s R ys).
  { destruct (Z.eq_dec R C) as [->|Ne]; [exists xs; now apply (g_half _ _ _ G)|].
    exists (X s R). apply (g_full _ _ _ G R HR NR Ne). }
  destruct K as (ys & pre & segs & FS & H). apply (pc_twin _ _ _ _ (h_pc _ _ _ _ _ _ H) x e Hx). now apply in_rot.
Qed.
(** A vertex with arcs is in exactly one component. *)
Lemma arc_home C xs s x e : geo C xs s -> In e (adj s x) ->
  exists R, isroot R /\ adj s R <> [] /\ In x (vsof s R).
Proof.
  intros G He. pose proof (g_out _ (g_base _ _ _ G) _ _ He) as Hx. destruct (Z_le_gt_dec x N) as [Le|Gt].
  - assert (Px : prim x) by (unfold prim; lia). destruct (Z.eq_dec (p x) NIL) as [E|Ne].
    + destruct (g_B0 _ (g_base _ _ _ G) x Px E) as (_ & Q & _). rewrite Q in He. destruct He.
    + destruct (B_root _ _ _ _ G Px Ne) as [H1 H2]. exists (B s x). split; [auto|]. split; [auto|]. apply in_vsof. auto.
  - exists x. unfold isroot. split; [lia|]. split; [intros E; now rewrite E in He|]. apply in_vsof. auto.
Qed.
Lemma vsof_inj s R R' x : isroot R -> isroot R' -> In x (vsof s R) -> In x (vsof s R') -> R = R'.
Proof.
  intros H1 H2 A C. apply in_vsof in A. apply in_vsof in C. unfold isroot, prim in *.
  destruct A as [A|[A A']], C as [C|[C C']]; subst; auto; lia.
Qed.

(** Another state that looks the same on a component. *)
Record agree (s t : gv) (R : Z) : Prop := {
  a_adj : forall x, In x (vsof s R) -> adj t x = adj s x;
  a_o : forall x, In x (vsof s R) -> o t x = o s x;
  a_nb : forall x e, In x (vsof s R) -> In e (adj s x) -> nb t e = nb s e;
  a_mem : mem t R = mem s R }.
Definition agree_ext (s t : gv) (l : list Z) : Prop := forall x, In x l -> e0 t x = e0 s x /\ e1 t x = e1 s x.

Lemma agree_rot s t R x : agree s t R -> In x (vsof s R) -> rot t x = rot s x.
Proof. intros A H. unfold rot. now rewrite (a_adj _ _ _ A x H), (a_o _ _ _ A x H). Qed.
Lemma agree_pc s t R FS : agree s t R -> pc (nb s) (rot s) (vsof s R) FS -> pc (nb t) (rot t) (vsof t R) FS.
Proof.
  intros A H. replace (vsof t R) with (vsof s R) by (unfold vsof; now rewrite (a_mem _ _ _ A)).
  eapply pc_congr; [exact H|..].
  - intros x e Hx. now rewrite (agree_rot _ _ _ _ A Hx).
  - intros x Hx. rewrite (agree_rot _ _ _ _ A Hx). now apply (pc_rot _ _ _ _ H).
  - intros x e Hx _. now rewrite (agree_rot _ _ _ _ A Hx).
  - intros x e Hx He. apply (a_nb _ _ _ A x); auto. now apply in_rot.
Qed.
Lemma starts_congr s t x l : rot t x = rot s x -> starts s x l -> starts t x l.
Proof. unfold starts. intros ->. auto. Qed.
Lemma starts_all s t xs segs : (forall x, In x xs -> rot t x = rot s x) -> Forall2 (starts s) xs segs -> Forall2 (starts t) xs segs.
Proof.
  intros H F. induction F as [|x l xs segs F1 F IH]; constructor.
  - eapply starts_congr; [apply H; now left|auto].
  - apply IH. intros y Hy. apply H. now right.
Qed.
Lemma half_congr s t R xs pre segs FS : agree s t R -> agree_ext s t (vsof s R) -> half s R xs pre segs FS -> half t R xs pre segs FS.
Proof.
  intros A E H.
  assert (Iv : forall x, In x xs -> In x (vsof s R)) by (intros x Hx; apply in_vsof; right; now apply (h_in _ _ _ _ _ _ H)).
  assert (IR : In R (vsof s R)) by now left.
  assert (Een : forall x, In x (vsof s R) -> en t x = en s x).
  { intros x Hx. unfold en. rewrite (a_o _ _ _ A x Hx). destruct (E x Hx) as [-> ->]. reflexivity. }
  assert (Eep : forall x, In x (vsof s R) -> ep t x = ep s x).
  { intros x Hx. unfold ep. rewrite (a_o _ _ _ A x Hx). destruct (E x Hx) as [-> ->]. reflexivity. }
  constructor.
  - eapply agree_pc; eauto. apply H.
  - eapply starts_congr; [now apply (agree_rot s t R)|apply H].
  - eapply starts_all; [|apply H]. intros x Hx. apply (agree_rot s t R); auto.
  - rewrite Eep by (apply Iv, hd_in, (h_ne _ _ _ _ _ _ H)). eapply linked_ext; [|apply H].
    intros x Hx. cbn beta. split; [apply Een|apply Eep]; auto.
  - rewrite Eep by auto. apply (h_last _ _ _ _ _ _ H).
  - apply (h_ne _ _ _ _ _ _ H).
  - apply (h_nodup _ _ _ _ _ _ H).
  - intros x Hx. split; [now apply (h_in _ _ _ _ _ _ H)|]. apply in_mem. rewrite (a_mem _ _ _ A). apply in_mem.
    now apply (h_in _ _ _ _ _ _ H).
  - intros x Hx. assert (Hx' : In x (vsof s R)) by (unfold vsof in *; now rewrite (a_mem _ _ _ A) in Hx).
    rewrite (a_adj _ _ _ A x Hx'). now apply (h_arcs _ _ _ _ _ _ H).
Qed.
Lemma full_congr s t R : agree s t R -> agree_ext s t (vsof s R) -> X t R = X s R -> full s R -> full t R.
Proof.
  intros A E EX [F1 F2 F3 F4]. destruct F1 as (pre & segs & FS & H).
  assert (Ih : In (hd NIL (X s R)) (vsof s R)).
  { apply in_vsof. right. apply (h_in _ _ _ _ _ _ H), hd_in, (h_ne _ _ _ _ _ _ H). }
  assert (IR : In R (vsof s R)) by now left.
  constructor; rewrite EX.
  - exists pre, segs, FS. eapply half_congr; eauto.
  - unfold en in *. rewrite (a_o _ _ _ A R IR). destruct (E R IR) as [-> ->]. auto.
  - unfold ep in *. rewrite (a_o _ _ _ A _ Ih). destruct (E _ Ih) as [-> ->]. auto.
  - intros L. rewrite (a_o _ _ _ A R IR), (a_o _ _ _ A _ Ih). auto.
Qed.

(** Dropping the first external vertices. *)
Lemma half_drop s R P W Q : halfopen s R (P ++ W :: Q) -> halfopen s R (W :: Q).
Proof.
  intros (pre & segs & FS & H). pose proof (h_segs _ _ _ _ _ _ H) as F.
  apply Forall2_app_inv_l in F as (s1 & s2 & F1 & F2 & ->).
  exists (pre ++ concat s1), s2, FS. constructor.
  - rewrite <- app_assoc, <- concat_app. apply H.
  - destruct (h_pre _ _ _ _ _ _ H) as [A1 A2]. split; [destruct pre; [tauto|discriminate]|]. now rewrite hd_app.
  - auto.
  - pose proof (h_linked _ _ _ _ _ _ H) as L. apply linked_app in L as [_ L].
    cbn [hd]. cbn [linked] in *. destruct L as (L1 & L2 & L3). auto.
  - rewrite (h_last _ _ _ _ _ _ H). now rewrite last_app_ne by discriminate.
  - discriminate.
  - pose proof (h_nodup _ _ _ _ _ _ H) as Nd. now apply NoDup_app_r in Nd.
  - intros x Hx. apply (h_in _ _ _ _ _ _ H). apply in_app_iff. auto.
  - apply H.
Qed.
Lemma geo_open s R P W Q : geo NIL [] s -> isroot R -> adj s R <> [] -> X s R = P ++ W :: Q -> geo R (W :: Q) s.
Proof.
  intros G HR NR E. pose proof (g_full _ _ _ G R HR NR ltac:(unfold isroot, NIL in *; lia)) as F.
  constructor; [apply G| |].
  - intros R' H1 H2 H3. apply (g_full _ _ _ G); auto. unfold isroot, NIL in *. lia.
  - intros _. apply (half_drop _ _ P). rewrite <- E. apply F.
Qed.

(** Making the links of the root and of the first listed vertex point at each other. *)
Lemma geo_close s t C xs : geo C xs s -> isroot C -> adj s C <> [] ->
  nb t = nb s -> fl t = fl s -> adj t = adj s -> o t = o s -> B t = B s ->
  (forall R, R <> C -> X t R = X s R) -> X t C = xs ->
  (length xs = 1%nat -> o s (hd NIL xs) = o s C) ->
  (forall x, e0 t x = if (x =? C) && negb (o s C) then hd NIL xs
                      else if (x =? hd NIL xs) && o s (hd NIL xs) then C else e0 s x) ->
  (forall x, e1 t x = if (x =? C) && o s C then hd NIL xs
                      else if (x =? hd NIL xs) && negb (o s (hd NIL xs)) then C else e1 s x) ->
  geo NIL [] t.
Proof.
  intros G HC NC En Ef Ea Eo EB EX EXC One E0 E1.
  destruct (g_half _ _ _ G HC) as (pre & segs & FS & H).
  assert (Hh : In (hd NIL xs) xs) by (apply hd_in, (h_ne _ _ _ _ _ _ H)).
  destruct (h_in _ _ _ _ _ _ H _ Hh) as [Ph Bh].
  assert (Nhc : hd NIL xs <> C) by (unfold prim, isroot in *; lia).
  assert (Ag : forall R, agree s t R) by (intros R; constructor; intros; unfold mem; rewrite ?Ea, ?Eo, ?En, ?EB; auto).
  assert (Ee : forall x, x <> C -> x <> hd NIL xs -> e0 t x = e0 s x /\ e1 t x = e1 s x).
  { intros x N1 N2. rewrite E0, E1. rewrite !(eqb_false_neq x) by auto. auto. }
  constructor.
  - pose proof (g_base _ _ _ G) as G0. destruct t as [tn tf t0 t1 ta to tX tB]. cbn in En, Ef, Ea, Eo, EB. subst tn tf ta to tB.
    destruct G0. constructor; assumption.
  - intros R HR NR _. destruct (Z.eq_dec R C) as [->|Ne].
    + assert (EnC : en t C = hd NIL xs).
      { unfold en. rewrite Eo, E0, E1, Z.eqb_refl. destruct (o s C); reflexivity. }
      assert (EpH : ep t (hd NIL xs) = C).
      { unfold ep. rewrite Eo, E0, E1, (eqb_false_neq (hd NIL xs) C), Z.eqb_refl by auto. destruct (o s (hd NIL xs)); reflexivity. }
      assert (EnO : forall x, x <> C -> en t x = en s x).
      { intros x Nx. unfold en. rewrite Eo, E0, E1, (eqb_false_neq x C) by auto. cbn [andb].
        destruct (Z.eqb_spec x (hd NIL xs)) as [->|_]; [|reflexivity]. destruct (o s (hd NIL xs)); reflexivity. }
      assert (EpO : forall x, x <> hd NIL xs -> ep t x = ep s x).
      { intros x Nx. unfold ep. rewrite Eo, E0, E1, (eqb_false_neq x (hd NIL xs)) by auto. cbn [andb].
        destruct (Z.eqb_spec x C) as [->|_]; [|reflexivity]. destruct (o s C); reflexivity. }
      constructor; rewrite ?EXC, ?Eo; auto. exists pre, segs, FS.
      assert (Er : forall x, rot t x = rot s x) by (intros x; unfold rot; now rewrite Ea, Eo).
      constructor.
      * eapply agree_pc; [apply Ag|apply H].
      * eapply starts_congr; [apply Er|apply H].
      * eapply starts_all; [|apply H]. auto.
      * rewrite EpH. pose proof (h_linked _ _ _ _ _ _ H) as L. pose proof (h_nodup _ _ _ _ _ _ H) as Nd.
        pose proof (h_ne _ _ _ _ _ _ H) as Nx. pose proof (h_in _ _ _ _ _ _ H) as Hin.
        destruct xs as [|w ws]; [tauto|]. cbn [hd] in *. cbn [linked] in *. destruct L as (L1 & L2 & L3).
        split; [auto|]. split; [rewrite EnO; auto|]. eapply linked_ext; [|exact L3]. intros x Hx. cbn beta.
        inversion Nd as [|? ? Nw Nd']. subst. split; [apply EnO|apply EpO].
        -- intros ->. destruct (Hin (B s w) (or_intror Hx)) as [Q _]. unfold prim, isroot in *. lia.
        -- intros ->. contradiction.
      * rewrite EpO by auto. apply (h_last _ _ _ _ _ _ H).
      * apply (h_ne _ _ _ _ _ _ H).
      * apply (h_nodup _ _ _ _ _ _ H).
      * rewrite EB. apply (h_in _ _ _ _ _ _ H).
      * rewrite Ea. replace (vsof t C) with (vsof s C) by (unfold vsof, mem; now rewrite EB). apply (h_arcs _ _ _ _ _ _ H).
    + eapply full_congr; [apply Ag| |now apply EX|apply (g_full _ _ _ G); auto; now rewrite <- Ea]. intros x Hx. apply Ee.
      * intros ->. apply Ne. apply (vsof_inj s R C C); auto. now left.
      * intros ->. apply Ne. apply (vsof_inj s R C (hd NIL xs)); auto. apply in_vsof. auto.
  - unfold isroot, NIL in *. lia.
Qed.

(** ** Mirror image of one component *)
Lemma al_mirror s t vs FS : pc (nb s) (rot s) vs FS ->
  forall xs segs pre q, (forall x, In x xs -> In x vs /\ rot s x <> [] /\ rot t x = rev (rot s x)) ->
  Forall2 (starts s) xs segs -> pre <> [] ->
  (forall e, In e (pre ++ concat segs) -> In e (concat FS)) ->
  fchain (fstep (nb s) (rot s)) (pre ++ concat segs) q ->
  exists pre' segs', mirror (pre ++ concat segs) = pre' ++ concat segs' /\ pre' <> [] /\
    hd NIL pre' = twin (last (pre ++ concat segs) NIL) /\ Forall2 (starts t) (rev xs) segs'.
Proof.
  intros P. induction xs as [|x xs IH]; intros segs pre q Hx F Np Hi C; inversion F; subst.
  - cbn [concat]. rewrite app_nil_r in *. exists (mirror pre), []. cbn [concat rev]. rewrite app_nil_r.
    split; [auto|]. split; [now apply mirror_ne|]. split; [now apply hd_mirror|constructor].
  - rename y into sg. rename l' into segs'. destruct H1 as [S1 S2]. cbn [concat] in *.
    apply fchain_app in C as [C1 C2].
    destruct (IH segs' sg q) as (pre' & gs & E1 & E2 & E3 & E4); auto.
    { intros y Hy. apply Hx. now right. }
    { intros e He. apply Hi. apply in_app_iff. auto. }
    exists pre', (gs ++ [mirror pre]). split; [|split; [auto|split]].
    + rewrite mirror_app, E1, concat_app. cbn [concat]. now rewrite app_nil_r, <- app_assoc.
    + rewrite E3. f_equal. symmetry. apply last_app_ne. destruct sg; [tauto|discriminate].
    + cbn [rev]. apply Forall2_app; [auto|]. repeat constructor; [now apply mirror_ne|].
      rewrite hd_mirror by auto. destruct (Hx x (or_introl eq_refl)) as (V & Nr & Er).
      rewrite hd_app in C1 by auto. rewrite (hd_ne_default sg q NIL S1) in C1. rewrite S2 in C1.
      assert (In (last pre NIL) (concat FS)) by (apply Hi, in_app_iff; left; now apply last_in).
      destruct (fs_pred _ _ _ _ P (last pre NIL) x H V Nr (fchain_last _ _ _ C1 Np)) as [_ ->].
      rewrite Er. destruct (list_snoc (rot s x)) as [E|(m & y & ->)]; [tauto|].
      rewrite rev_app_distr, last_snoc. reflexivity.
Qed.

Definition flip (s : gv) (R : Z) : gv :=
  mkGV (nb s) (fl s) (e0 s) (e1 s) (adj s) (fun x => xorb (inb x (vsof s R)) (o s x))
       (fun x => if x =? R then rev (X s R) else X s x) (B s).
Lemma flip_in s R x : In x (vsof s R) -> o (flip s R) x = negb (o s x).
Proof. intros H. cbn [o flip]. destruct (inb_spec x (vsof s R)); [now destruct (o s x)|tauto]. Qed.
Lemma flip_out s R x : ~ In x (vsof s R) -> o (flip s R) x = o s x.
Proof. intros H. cbn [o flip]. destruct (inb_spec x (vsof s R)); [tauto|]. now destruct (o s x). Qed.
Lemma flip_rot s R x : In x (vsof s R) -> rot (flip s R) x = rev (rot s x).
Proof. intros H. unfold rot. rewrite flip_in by auto. cbn [adj flip]. destruct (o s x); cbn [negb]; [now rewrite rev_involutive|reflexivity]. Qed.
Lemma flip_en s R x : In x (vsof s R) -> en (flip s R) x = ep s x /\ ep (flip s R) x = en s x.
Proof. intros H. unfold en, ep. rewrite flip_in by auto. cbn [e0 e1 flip]. destruct (o s x); auto. Qed.

Lemma geo_flip s R : geo NIL [] s -> isroot R -> adj s R <> [] -> geo NIL [] (flip s R).
Proof.
  intros G HR NR. pose proof (g_base _ _ _ G) as G0.
  assert (Vio : forall x e, In e (adj s x) -> In (nb s e) (vsof s R) <-> In x (vsof s R)).
  { intros x e He. split; intros H; [|now apply (arc_comp _ _ _ _ _ _ G HR NR H)].
    destruct (g_twins _ G0 _ _ He) as [T1 T2]. rewrite <- T1. apply (arc_comp _ _ _ _ _ _ G HR NR H T2). }
  constructor.
  - constructor; try apply G0.
    intros x e He Hc. change (adj (flip s R)) with (adj s) in He. change (nb (flip s R)) with (nb s).
    pose proof (g_sign _ G0 x e He Hc) as Sg. change (invarc (flip s R) e) with (invarc s e).
    destruct (in_dec Z.eq_dec x (vsof s R)) as [I|I].
    + rewrite (flip_in s R x I), (flip_in s R (nb s e)) by now apply (Vio x e He). rewrite Sg. destruct (o s x), (invarc s e); reflexivity.
    + rewrite (flip_out s R x I), (flip_out s R (nb s e)) by now rewrite (Vio x e He). exact Sg.
  - intros R' HR' NR' _. change (adj (flip s R)) with (adj s) in NR'.
    pose proof (g_full _ _ _ G R' HR' NR' ltac:(unfold isroot, NIL in *; lia)) as F.
    destruct (Z.eq_dec R' R) as [->|Ne].
    + clear NR' HR'. destruct F as [(pre & segs & FS & H) F2 F3 F4].
      assert (IR : In R (vsof s R)) by now left.
      assert (Ix : forall x, In x (X s R) -> In x (vsof s R)).
      { intros x Hx. apply in_vsof. right. now apply (h_in _ _ _ _ _ _ H). }
      assert (Hr : forall x, In x (vsof s R) -> rot s x <> []).
      { intros x Hx. apply rot_ne. now apply (h_arcs _ _ _ _ _ _ H). }
      pose proof (h_pc _ _ _ _ _ _ H) as P. pose proof (h_pre _ _ _ _ _ _ H) as [Np Hp0].
      destruct (pc_closed _ _ _ _ P _ (or_introl eq_refl)) as [NO CO].
      destruct (al_mirror s (flip s R) _ _ P (X s R) segs pre (hd NIL (pre ++ concat segs))) as (pre' & segs' & E1 & E2 & E3 & E4); auto.
      { intros x Hx. split; [auto|]. split; [auto|]. apply flip_rot. auto. }
      { apply H. }
      { intros e He. cbn. rewrite in_app_iff. auto. }
      assert (EX : X (flip s R) R = rev (X s R)) by (cbn; now rewrite Z.eqb_refl).
      pose proof (h_ne _ _ _ _ _ _ H) as NX.
      assert (Hhd : hd NIL (rev (X s R)) = last (X s R) NIL).
      { destruct (list_snoc (X s R)) as [E|(m & y & ->)]; [tauto|]. rewrite rev_app_distr, last_snoc. reflexivity. }
      assert (Hla : last (rev (X s R)) NIL = hd NIL (X s R)).
      { destruct (X s R) as [|y m]; [tauto|]. cbn [rev hd]. now rewrite last_snoc. }
      assert (Il : In (last (X s R) NIL) (X s R)) by now apply last_in.
      constructor; rewrite ?EX, ?Hhd.
      * exists pre', segs', (map mirror FS). constructor; rewrite ?Hhd, ?Hla.
        -- change (nb (flip s R)) with (nb s). change (vsof (flip s R) R) with (vsof s R).
           rewrite <- E1. change (mirror (pre ++ concat segs) :: map mirror FS) with (map mirror ((pre ++ concat segs) :: FS)).
           apply (pc_mirror _ _ _ _ _ P). intros x Hx. now apply flip_rot.
        -- split; [auto|]. rewrite E3, flip_rot by auto.
           assert (Fl : fstep (nb s) (rot s) (last (pre ++ concat segs) NIL) = hd NIL (rot s R)).
           { rewrite (fchain_last _ _ _ CO NO), hd_app; auto. }
           assert (Li : In (last (pre ++ concat segs) NIL) (concat ((pre ++ concat segs) :: FS))).
           { cbn [concat]. apply in_app_iff. left. now apply last_in. }
           destruct (fs_pred _ _ _ _ P _ R Li IR (Hr _ IR) Fl) as [_ ->].
           destruct (list_snoc (rot s R)) as [E|(m & y & Ey)]; [now apply Hr in E|].
           rewrite Ey, rev_app_distr, last_snoc. reflexivity.
        -- auto.
        -- pose proof (h_linked _ _ _ _ _ _ H) as L. rewrite F3 in L. apply linked_rev in L.
           rewrite (proj2 (flip_en s R _ (Ix _ Il))). pose proof (h_last _ _ _ _ _ _ H) as HL.
           assert (En : en s (last (X s R) NIL) = R).
           { clear - L NX. destruct (list_snoc (X s R)) as [E|(m & y & E)]; [tauto|]. rewrite E in *.
             rewrite rev_app_distr in L. rewrite last_snoc. apply L. }
           rewrite En. eapply linked_ext; [|exact L]. intros x Hx. cbn beta. apply flip_en, Ix. now apply in_rev.
        -- rewrite (proj2 (flip_en s R _ IR)). exact F2.
        -- intros E. apply NX. rewrite <- (rev_involutive (X s R)), E. reflexivity.
        -- apply NoDup_rev, H.
        -- intros x Hx. apply (h_in _ _ _ _ _ _ H). now apply in_rev.
        -- apply H.
      * rewrite (proj1 (flip_en s R _ IR)). apply (h_last _ _ _ _ _ _ H).
      * rewrite (proj2 (flip_en s R _ (Ix _ Il))). pose proof (h_linked _ _ _ _ _ _ H) as L.
        clear - L NX. destruct (list_snoc (X s R)) as [E|(m & y & E)]; [tauto|]. rewrite E in *. rewrite last_snoc.
        apply linked_app in L as [_ L]. apply L.
      * rewrite rev_length. intros L1. rewrite !flip_in by (auto; apply Ix; auto). f_equal. rewrite <- F4 by auto. f_equal.
        clear - L1. destruct (X s R) as [|a [|b m]]; try discriminate. reflexivity.
    + assert (Nv : forall x, In x (vsof s R') -> ~ In x (vsof s R)).
      { intros x H1 H2. apply Ne. now apply (vsof_inj s R' R x). }
      eapply full_congr; [| | |exact F].
      * constructor; intros; auto. now apply flip_out, Nv.
      * intros x Hx. auto.
      * cbn. now rewrite (eqb_false_neq R' R).
  - unfold isroot, NIL. lia.
Qed.
End Geo.
