(** * EmbEuler: joining the components of a finished partial embedding gives a planar embedding. *)
From Coq Require Import ZifyBool Permutation.
From Verif Require Import Base BaseP GraphRec GraphM GraphSpec GSimp LinkP GraphP GraphP2 ListM DFSM DFSSpec TestM TestSpec GraphP3 TestP TestP2 TestP3 EmbM EmbSpec EmbP EmbP2 EmbP3 FaceP GeoP GeoP2.

(** ** Counting faces *)
Lemma iter_r {A} (f : A -> A) k a : Nat.iter (S k) f a = Nat.iter k f (f a).
Proof. induction k as [|k IH]; [reflexivity|]. cbn [Nat.iter nat_rect] in *. unfold Nat.iter in *. cbn in *. now rewrite IH. Qed.
Lemma face_in f l a : fclosed f l -> In a l -> In (f a) l.
Proof.
  intros [N C] H. apply in_split in H as (l1 & l2 & E). rewrite E in C. apply fchain_app in C. destruct C as [_ [C _]].
  rewrite C. destruct l2 as [|b l2]; cbn [hd]; [|rewrite E; apply in_app_iff; right; right; now left]. rewrite <- E. now apply hd_in.
Qed.
Lemma face_iter f l a k : fclosed f l -> In a l -> In (Nat.iter k f a) l.
Proof. intros C H. induction k as [|k IH]; [exact H|]. cbn [Nat.iter nat_rect]. now apply face_in. Qed.
Lemma chain_iter f l1 : forall a b l2 q, fchain f (a :: l1 ++ b :: l2) q -> exists k, Nat.iter k f a = b.
Proof.
  induction l1 as [|x l1 IH]; intros a b l2 q [C1 C2].
  - exists 1%nat. cbn in *. exact C1.
  - cbn [app] in *. destruct (IH x b l2 q C2) as [k E]. exists (S k). rewrite iter_r. cbn [hd] in C1. now rewrite C1.
Qed.
Lemma face_orbit f l b : fclosed f l -> In b l -> exists k, Nat.iter k f (hd NIL l) = b.
Proof.
  intros [N C] H. apply in_split in H as (l1 & l2 & E). destruct l1 as [|a l1].
  - exists 0%nat. now rewrite E.
  - rewrite E in *. cbn [app hd] in *. eapply chain_iter. exact C.
Qed.
Lemma face_two f l a b : fclosed f l -> In a l -> In b l -> exists k, Nat.iter k f a = b.
Proof.
  intros [N C] Ha Hb. apply in_split in Ha as (l1 & l2 & E). assert (C' : fclosed f ((a :: l2) ++ l1)) by (apply fclosed_rot; rewrite <- E; split; auto).
  apply (face_orbit f _ b C'). rewrite E in Hb. rewrite in_app_iff in *. tauto.
Qed.
Lemma concat_disj {A} (FS : list (list A)) l l' x : NoDup (concat FS) -> In l FS -> In l' FS -> In x l -> In x l' -> l = l'.
Proof.
  induction FS as [|m FS IH]; [intros _ []|]. cbn [concat]. intros Nd H H' Hx Hx'.
  destruct H as [->|H], H' as [->|H']; auto.
  - exfalso. apply (NoDup_app_disj _ _ x Nd Hx). apply in_concat. eauto.
  - exfalso. apply (NoDup_app_disj _ _ x Nd Hx'). apply in_concat. eauto.
  - apply IH; auto. eapply NoDup_app_r; eauto.
Qed.
Lemma heads_nodup (FS : list (list Z)) : NoDup (concat FS) -> (forall l, In l FS -> l <> []) -> NoDup (map (hd NIL) FS).
Proof.
  induction FS as [|l FS IH]; intros Nd Ne; cbn [map]; constructor.
  - rewrite in_map_iff. intros (m & E & Hm). cbn [concat] in Nd. apply (NoDup_app_disj _ _ (hd NIL l) Nd).
    + apply hd_in, Ne. now left.
    + apply in_concat. exists m. split; [auto|]. rewrite <- E. apply hd_in, Ne. now right.
  - apply IH; [eapply NoDup_app_r; exact Nd|]. intros; apply Ne; now right.
Qed.
Lemma count_faces g adj FS : NoDup (concat FS) -> (forall l, In l FS -> fclosed (face_step g adj) l) ->
  (forall e, In e (concat FS) <-> is_arc adj e) -> num_faces g adj (Z.of_nat (length FS)).
Proof.
  intros Nd Cl Ar. exists (map (hd NIL) FS). split; [apply heads_nodup; auto; intros l Hl; apply (Cl l Hl)|].
  split.
  { intros r Hr. apply in_map_iff in Hr as (l & <- & Hl). apply Ar, in_concat. exists l. split; [auto|]. apply hd_in, (Cl l Hl). }
  split.
  { intros r r' Hr Hr' (k & E). apply in_map_iff in Hr as (l & <- & Hl). apply in_map_iff in Hr' as (l' & <- & Hl').
    f_equal. apply (concat_disj FS l l' (hd NIL l')); auto.
    - rewrite <- E. apply face_iter; [auto|]. apply hd_in, (Cl l Hl).
    - apply hd_in, (Cl l' Hl'). }
  split; [|now rewrite map_length].
  intros x Hx. apply Ar, in_concat in Hx as (l & Hl & Hi). exists (hd NIL l). split; [apply in_map_iff; eauto|].
  destruct (face_orbit _ l x (Cl l Hl) Hi) as [k E]. exists k. exact E.
Qed.

(** ** Planar systems *)
(** One face carries the first arc of every vertex. *)
Definition ou (rot : Z -> list Z) (vs : list Z) (FS : list (list Z)) : Prop := exists O, In O FS /\ forall y, In y vs -> In (hd NIL (rot y)) O.
(** The face at the first arc of a vertex, in front. *)
Lemma pc_front nb rot vs FS x : pc nb rot vs FS -> In x vs -> rot x <> [] ->
  exists O1 F1, pc nb rot vs (O1 :: F1) /\ hd NIL O1 = hd NIL (rot x) /\ (ou rot vs FS -> forall y, In y vs -> In (hd NIL (rot y)) O1).
Proof.
  intros P Hx Nx. assert (H : In (hd NIL (rot x)) (concat FS)) by (apply (pc_arcs _ _ _ _ P); exists x; split; [auto|now apply hd_in]).
  apply in_concat in H as (l & Hl & Hi).
  assert (U : ou rot vs FS -> forall y, In y vs -> In (hd NIL (rot y)) l).
  { intros (O & I1 & I2) y Hy. rewrite (concat_disj FS l O (hd NIL (rot x)) (pc_nodup _ _ _ _ P) Hl I1 Hi (I2 x Hx)). auto. }
  apply in_split in Hl as (F1 & F2 & ->). apply in_split in Hi as (a & b & ->).
  exists ((hd NIL (rot x) :: b) ++ a), (F1 ++ F2). split; [|split; [reflexivity|]]; [|intros Q y Hy; specialize (U Q y Hy); rewrite in_app_iff in *; tauto].
  apply pc_turn. eapply pc_perm; [exact P|]. apply Permutation_sym, Permutation_middle.
Qed.
(** A vertex may be replaced by another one without arcs. *)
Lemma pc_rename nb rot R ws FS Z0 nb' rot' : pc nb rot (R :: ws) FS -> ~ In Z0 ws ->
  rot' Z0 = rot R -> (forall x, In x ws -> rot' x = rot x) ->
  (forall x e, In x (R :: ws) -> In e (rot x) -> nb' e = if nb e =? R then Z0 else nb e) ->
  pc nb' rot' (Z0 :: ws) FS.
Proof.
  intros P Nz ER EW EN. pose proof (pc_vs _ _ _ _ P) as Nv. apply NoDup_cons_iff in Nv. destruct Nv as [NR Nw].
  set (r := fun x => if x =? R then Z0 else x).
  assert (Er : forall x, In x (R :: ws) -> rot' (r x) = rot x).
  { intros x Hx. unfold r. destruct (Z.eqb_spec x R) as [->|Ne]; [exact ER|]. apply EW. destruct Hx; [congruence|auto]. }
  assert (Ir : forall x, In x (Z0 :: ws) -> exists y, In y (R :: ws) /\ x = r y).
  { intros x [<-|Hx].
    - exists R. split; [now left|]. unfold r. now rewrite Z.eqb_refl.
    - exists x. split; [now right|]. unfold r. rewrite eqb_false_neq; [auto|]. intros ->. contradiction. }
  assert (Ri : forall y, In y (R :: ws) -> In (r y) (Z0 :: ws)).
  { intros y Hy. unfold r. destruct (Z.eqb_spec y R) as [->|Ne]; [now left|]. right. destruct Hy; [congruence|auto]. }
  constructor.
  - constructor; auto.
  - apply P.
  - intros e. rewrite (pc_arcs _ _ _ _ P). split.
    + intros (x & Hx & He). exists (r x). split; [auto|]. rewrite Er; auto.
    + intros (x & Hx & He). destruct (Ir x Hx) as (y & Hy & ->). exists y. split; [auto|]. rewrite Er in He; auto.
  - intros l Hl. destruct (pc_closed _ _ _ _ P l Hl) as [Ne C]. split; [exact Ne|]. eapply fchain_ext; [|exact C].
    intros e He. assert (Ic : In e (concat FS)) by (apply in_concat; eauto). pose proof (proj1 (pc_arcs _ _ _ _ P e) Ic) as (x & Hx & Hex).
    unfold fstep. rewrite (EN x e Hx Hex). change (if nb e =? R then Z0 else nb e) with (r (nb e)). rewrite Er; [reflexivity|].
    apply (pc_twin _ _ _ _ P x e Hx Hex).
  - intros x Hx. destruct (Ir x Hx) as (y & Hy & ->). rewrite Er by auto. now apply (pc_rot _ _ _ _ P).
  - intros x y e Hx Hy He He'. destruct (Ir x Hx) as (x' & Hx' & ->), (Ir y Hy) as (y' & Hy' & ->). rewrite Er in He, He' by auto. f_equal. apply (pc_disj _ _ _ _ P x' y' e); auto.
  - intros x e Hx He. destruct (Ir x Hx) as (x' & Hx' & ->). rewrite Er in He by auto. destruct (pc_twin _ _ _ _ P x' e Hx' He) as (T1 & T2 & T3).
    rewrite (EN x' e Hx' He). change (if nb e =? R then Z0 else nb e) with (r (nb e)). split; [auto|]. rewrite Er by auto. split; [auto|].
    rewrite (EN (nb e) (twin e) T1 T2), T3. reflexivity.
  - rewrite (pc_euler _ _ _ _ P). cbn [length]. reflexivity.
Qed.
(** Merging with the arcs of the root in front. *)
Lemma pc_join nb rot vs1 F1 R ws F2 Z0 nb' rot' :
  pc nb rot vs1 F1 -> pc nb rot (R :: ws) F2 ->
  (forall x, In x vs1 -> ~ In x (R :: ws)) ->
  (forall x y e, In x vs1 -> In y (R :: ws) -> In e (rot x) -> In e (rot y) -> False) ->
  In Z0 vs1 -> rot Z0 <> [] -> rot R <> [] ->
  rot' Z0 = rot R ++ rot Z0 -> (forall x, In x vs1 -> x <> Z0 -> rot' x = rot x) -> (forall x, In x ws -> rot' x = rot x) ->
  (forall x e, In x (vs1 ++ R :: ws) -> In e (rot x) -> nb' e = if nb e =? R then Z0 else nb e) ->
  exists FS, pc nb' rot' (vs1 ++ ws) FS /\ (ou rot vs1 F1 -> ou rot (R :: ws) F2 -> ou rot' (vs1 ++ ws) FS).
Proof.
  intros P1 P2 Dj Da HZ NZ NR EZ E1 E2 EN.
  destruct (pc_front _ _ _ _ Z0 P1 HZ NZ) as (O1 & F1' & Q1 & H1 & U1). destruct (pc_front _ _ _ _ R P2 (or_introl eq_refl) NR) as (O2 & F2' & Q2 & H2 & U2).
  set (rot2 := upd rot' Z0 (rot Z0 ++ rot R)).
  assert (Ic : forall x, In x (vs1 ++ R :: ws) <-> In x vs1 \/ In x (R :: ws)) by (intros; apply in_app_iff).
  assert (M : pc nb' rot2 (vs1 ++ ws) ((O2 ++ O1) :: F1' ++ F2')).
  { eapply (pc_merge1 nb rot vs1 O1 F1' R ws O2 F2' Z0); eauto.
    - unfold rot2. now rewrite upd_same.
    - intros x Hx Ne. unfold rot2. rewrite upd_other by auto. auto.
    - intros x Hx. unfold rot2. rewrite upd_other; auto. intros ->. apply (Dj Z0 HZ). now right.
    - intros e He. destruct (pc_twin _ _ _ _ P2 R e (or_introl eq_refl) He) as (T1 & T2 & T3).
      rewrite (EN (nb e) (twin e)), T3, Z.eqb_refl; auto. apply Ic. auto.
    - intros x e Hx He Nt. rewrite (EN x e Hx He). destruct (Z.eqb_spec (nb e) R) as [E|]; [|reflexivity]. exfalso. apply Nt.
      apply Ic in Hx. destruct Hx as [Hx|Hx].
      + destruct (pc_twin _ _ _ _ P1 x e Hx He) as (T1 & T2 & T3). now rewrite <- E.
      + destruct (pc_twin _ _ _ _ P2 x e Hx He) as (T1 & T2 & T3). now rewrite <- E. }
  exists ((O2 ++ O1) :: F1' ++ F2'). split.
  2:{ intros V1 V2. exists (O2 ++ O1). split; [left; reflexivity|]. intros y Hy. rewrite in_app_iff. destruct (Z.eq_dec y Z0) as [->|Ne].
      - left. rewrite EZ. specialize (U2 V2 R (or_introl eq_refl)). destruct (rot R) as [|e l]; [congruence|exact U2].
      - apply in_app_iff in Hy. destruct Hy as [Hy|Hy]; [right; rewrite E1; auto|left; rewrite E2; [|auto]; apply U2; [auto|now right]]. }
  eapply pc_congr; [exact M|..].
  - intros x e Hx. unfold rot2, upd. destruct (Z.eqb_spec x Z0) as [->|]; [|tauto]. rewrite EZ, !in_app_iff. tauto.
  - intros x Hx. pose proof (pc_rot _ _ _ _ M x Hx) as Nd. unfold rot2, upd in Nd. destruct (Z.eqb_spec x Z0) as [->|]; [|auto].
    rewrite EZ. eapply Permutation_NoDup; [apply Permutation_app_comm|exact Nd].
  - intros x t Hx Ht. pose proof (pc_rot _ _ _ _ M x Hx) as Nd. unfold rot2, upd in *. destruct (Z.eqb_spec x Z0) as [->|]; [|auto].
    rewrite EZ. now apply cnext_turn.
  - auto.
Qed.

Lemma in_perm {A} (x : A) l : In x l -> exists l', Permutation l (x :: l').
Proof. intros H. apply in_split in H as (l1 & l2 & ->). exists (l1 ++ l2). apply Permutation_sym, Permutation_middle. Qed.

Section Euler.
Variable h : graph.
Local Notation N := (gN h).
Local Notation p := (viParent (gVI h)).
Local Notation prim := (prim (gN h)).
Local Notation isroot := (isroot (gN h)).
Local Notation geo := (geo (gN h) (viParent (gVI h))).
Local Notation vsof := (vsof (gN h)).
Hypothesis Hp : forall z, prim z -> p z <> NIL -> prim (p z) /\ p z < z.
Variable s : gv.
Hypothesis G : geo NIL [] s.
Let G0 := g_base _ _ _ _ _ G.
Hypothesis Ch : chains h (rot s).

Definition rotn (n : nat) : Z -> list Z := part_lists h (rot s) n.
Definition nbn (n : nat) (e : Z) : Z := part_prim h n (nb s e).
Definition nempty {A} (l : list A) : bool := match l with [] => false | _ => true end.
Lemma nempty_true {A} (l : list A) : nempty l = true <-> l <> [].
Proof. destruct l; cbn; split; auto; discriminate || congruence. Qed.

Lemma copies : copies_ok h (rot s).
Proof.
  intros R HR Nr. apply rot_ne in Nr. unfold primary_of. replace (R <=? N) with false by lia.
  assert (Pz : prim (R - N)) by (unfold GeoP.prim; lia). destruct (Z.eq_dec (p (R - N)) NIL) as [E|Ne].
  - destruct (g_B0 _ _ _ G0 _ Pz E) as (_ & _ & Q). replace (N + (R - N)) with R in Q by lia. contradiction.
  - apply Hp; auto.
Qed.
Lemma act_c c : prim c -> adj s (N + c) <> [] -> p c <> NIL.
Proof. intros Pc Na E. destruct (g_B0 _ _ _ G0 c Pc E) as (_ & _ & Q). contradiction. Qed.
Lemma nonroot_arcs z : prim z -> p z <> NIL -> adj s z <> [].
Proof.
  intros Pz Ne. destruct (B_root _ _ Hp _ _ _ z G Pz Ne) as [H1 H2].
  assert (RN : B s z <> NIL) by (unfold GeoP.isroot, NIL in *; unfold GeoP.prim in Pz; lia).
  destruct (f_half _ _ _ (g_full _ _ _ _ _ G _ H1 H2 RN)) as (pre & segs & FS & Hh). apply (h_arcs _ _ _ _ _ _ _ Hh). apply in_vsof. auto.
Qed.
(** Every vertex is on the external face of its component. *)
Definition allX : Prop := forall y, prim y -> p y <> NIL -> In y (X s (B s y)).
Lemma block_pc R : isroot R -> adj s R <> [] -> exists FS, pc (nb s) (rot s) (vsof s R) FS /\ (allX -> ou (rot s) (vsof s R) FS).
Proof.
  intros H1 H2. assert (RN : R <> NIL) by (unfold GeoP.isroot, NIL in *; lia).
  destruct (f_half _ _ _ (g_full _ _ _ _ _ G _ H1 H2 RN)) as (pre & segs & FS & Hh). eexists. split; [apply Hh|].
  intros A. eexists. split; [left; reflexivity|]. intros y Hy. apply in_app_iff. apply in_vsof in Hy. destruct Hy as [->|[Py By]].
  - left. destruct (h_pre _ _ _ _ _ _ _ Hh) as [E1 <-]. now apply hd_in.
  - right. assert (Ny : p y <> NIL) by (intros E; destruct (g_B0 _ _ _ G0 y Py E) as (Q & _); congruence). specialize (A y Py Ny). rewrite By in A.
    pose proof (h_segs _ _ _ _ _ _ _ Hh) as F. revert A. clear - F. induction F as [|x l xs segs [S1 S2] F IH]; [intros []|]. cbn [concat]. rewrite in_app_iff.
    intros [<-|Hy]; [left; rewrite <- S2; now apply hd_in|right; auto].
Qed.
Lemma block_arcs R x : isroot R -> adj s R <> [] -> In x (vsof s R) -> rot s x <> [].
Proof.
  intros H1 H2 Hx. assert (RN : R <> NIL) by (unfold GeoP.isroot, NIL in *; lia).
  destruct (f_half _ _ _ (g_full _ _ _ _ _ G _ H1 H2 RN)) as (pre & segs & FS & Hh). apply rot_ne. now apply (h_arcs _ _ _ _ _ _ _ Hh).
Qed.
(** The parent of c is in no component whose root belongs to c or a later vertex. *)
Lemma parent_block c R : prim c -> p c <> NIL -> isroot R -> N + c <= R -> ~ In (p c) (vsof s R).
Proof.
  intros Pc Ne HR L Hi. destruct (Hp c Pc Ne) as [Pp Lt]. apply in_vsof in Hi. destruct Hi as [E|[_ Bz]]; [unfold GeoP.isroot, GeoP.prim in *; lia|].
  destruct (Z.eq_dec (p (p c)) NIL) as [E|Nn].
  - destruct (g_B0 _ _ _ G0 _ Pp E) as (Q & _). unfold GeoP.isroot, NIL in *. lia.
  - destruct (B_spec _ _ Hp _ _ _ (p c) G Pp Nn) as (d & D1 & D2 & D3 & D4 & D5).
    assert (d <= p c). { clear - D5 Pp Hp. revert Pp. induction D5; [lia|]. intros Pv. destruct (Hp v Pv H) as [A1 A2]. specialize (IHD5 A1). lia. } lia.
Qed.

Definition acts (n : nat) : list Z := filter (fun R => (N + Z.of_nat n <? R) && nempty (adj s R)) (zrange (N + 1) (Z.to_nat N)).
Definition rts (n : nat) : list Z := filter (fun r => (p r =? NIL) && nempty (rotn n r)) (zrange 1 (Z.to_nat N)).
Record sys (n : nat) (L : list (list Z * list (list Z))) : Prop := {
  sy_pc : forall vs FS, In (vs, FS) L -> pc (nbn n) (rotn n) vs FS;
  sy_ou : forall vs FS, In (vs, FS) L -> allX -> ou (rotn n) vs FS;
  sy_nd : NoDup (concat (map fst L));
  sy_in : forall x, In x (concat (map fst L)) <-> rotn n x <> [];
  sy_act : forall R, N + Z.of_nat n < R <= 2 * N -> adj s R <> [] -> exists FS, In (vsof s R, FS) L;
  sy_len : length L = (length (acts n) + length (rts n))%nat }.
Lemma sys_perm n L L' : sys n L -> Permutation L L' -> sys n L'.
Proof.
  intros [S1 S1' S2 S3 S4 S5] E. assert (Ec : Permutation (concat (map fst L)) (concat (map fst L'))) by (apply concat_perm, Permutation_map, E).
  constructor.
  - intros vs FS Hi. apply S1. eapply Permutation_in; [apply Permutation_sym, E|auto].
  - intros vs FS Hi. apply S1'. eapply Permutation_in; [apply Permutation_sym, E|auto].
  - eapply Permutation_NoDup; eauto.
  - intros x. rewrite <- S3. split; apply Permutation_in; [now apply Permutation_sym|auto].
  - intros R H1 H2. destruct (S4 R H1 H2) as [FS H]. exists FS. eapply Permutation_in; eauto.
  - rewrite <- (Permutation_length E). exact S5.
Qed.

Lemma rotn_0 x : rotn 0 x = rot s x.
Proof. unfold rotn, part_lists. cbn [copies_of flat_map app]. destruct (Z.leb_spec x N); [reflexivity|]. replace (x <=? N + Z.of_nat 0) with false by lia. reflexivity. Qed.
Lemma nbn_0 e : nbn 0 e = nb s e.
Proof. unfold nbn, part_prim. replace ((N <? nb s e) && (nb s e <=? N + Z.of_nat 0)) with false by lia. reflexivity. Qed.

Lemma sys_0 : exists L, sys 0 L.
Proof.
  assert (A : forall l, NoDup l -> (forall R, In R l -> isroot R /\ adj s R <> []) ->
     exists L, map fst L = map (vsof s) l /\ forall vs FS, In (vs, FS) L -> pc (nb s) (rot s) vs FS /\ (allX -> ou (rot s) vs FS)).
  { induction l as [|R l IH]; intros Nd H; [exists []; split; [reflexivity|intros ? ? []]|].
    apply NoDup_cons_iff in Nd. destruct (IH (proj2 Nd)) as (L & L1 & L2); [intros; apply H; now right|]. destruct (H R (or_introl eq_refl)) as [H1 H2].
    destruct (block_pc R H1 H2) as [FS P]. exists ((vsof s R, FS) :: L). split; [cbn [map fst]; now rewrite L1|].
    intros vs FS' [E|Hi]; [inversion E; subst; exact P|auto]. }
  assert (Ia : forall R, In R (acts 0) <-> isroot R /\ adj s R <> []).
  { intros R. unfold acts. rewrite filter_In, in_zrange. unfold GeoP.isroot. destruct (nempty (adj s R)) eqn:E.
    - apply nempty_true in E. split; [intros [H1 H2]; split; [lia|auto]|intros [H1 H2]; split; lia].
    - rewrite andb_false_r. split; [intros [_ H]; discriminate|]. intros [_ H]. apply nempty_true in H. congruence. }
  destruct (A (acts 0)) as (L & L1 & L2); [apply NoDup_filter, NoDup_zrange|intros R HR; now apply Ia|].
  assert (Ix : forall x, In x (concat (map fst L)) <-> exists R, isroot R /\ adj s R <> [] /\ In x (vsof s R)).
  { intros x. rewrite L1, in_concat. split.
    - intros (l & Hl & Hx). apply in_map_iff in Hl as (R & <- & HR). apply Ia in HR. exists R. tauto.
    - intros (R & H1 & H2 & H3). exists (vsof s R). split; [apply in_map, Ia; auto|auto]. }
  exists L. constructor.
  - intros vs FS Hi. eapply pc_congr; [apply (L2 vs FS Hi)|..].
    + intros x e _. now rewrite rotn_0.
    + intros x Hx. rewrite rotn_0. apply (pc_rot _ _ _ _ (proj1 (L2 vs FS Hi))); auto.
    + intros x t _ _. now rewrite rotn_0.
    + intros x e _ _. apply nbn_0.
  - intros vs FS Hi A0. destruct (proj2 (L2 vs FS Hi) A0) as (O & I1 & I2). exists O. split; [auto|]. intros y Hy. rewrite rotn_0. auto.
  - rewrite L1. assert (Nd : NoDup (acts 0)) by apply NoDup_filter, NoDup_zrange. assert (HR : forall R, In R (acts 0) -> isroot R) by (intros R HR; apply Ia; auto).
    clear - Nd HR. induction (acts 0) as [|R l IH]; [constructor|]. apply NoDup_cons_iff in Nd. cbn [map concat]. apply NoDup_app_intro.
    + apply vsof_nodup. apply HR. now left.
    + apply IH; [apply Nd|intros; apply HR; now right].
    + intros x Hx Hx'. apply in_concat in Hx' as (m & Hm & Hx'). apply in_map_iff in Hm as (R' & <- & HR'). apply (proj1 Nd).
      rewrite (vsof_inj N s R R' x); auto; [apply HR; now left|apply HR; now right].
  - intros x. rewrite Ix, rotn_0. split.
    + intros (R & H1 & H2 & H3). eapply block_arcs; eauto.
    + intros H. destruct (rot s x) as [|e l] eqn:E; [congruence|]. apply (arc_home _ _ Hp _ _ _ x e G). apply in_rot. rewrite E. now left.
  - intros R H1 H2. assert (HR : In (vsof s R) (map fst L)).
    { rewrite L1. apply in_map, Ia. unfold GeoP.isroot. split; [lia|auto]. }
    apply in_map_iff in HR as ((vs, FS) & E & Hi). cbn [fst] in E. subst vs. eauto.
  - assert (E : rts 0 = []).
    { unfold rts. destruct (filter _ _) as [|r l] eqn:E; [reflexivity|]. exfalso.
      assert (Hr : In r (r :: l)) by now left. rewrite <- E in Hr. apply filter_In in Hr as [H1 H2]. apply in_zrange in H1.
      apply andb_prop in H2 as [H2 H3]. apply Z.eqb_eq in H2. apply nempty_true in H3. rewrite rotn_0 in H3. apply rot_ne in H3.
      destruct (g_B0 _ _ _ G0 r) as (_ & Q & _); auto. unfold GeoP.prim. lia. }
    rewrite E. cbn [length]. rewrite <- (map_length fst L), L1, map_length. lia.
Qed.

Lemma filter_same {A} (f f' : A -> bool) l : (forall x, In x l -> f' x = f x) -> filter f' l = filter f l.
Proof. induction l as [|x l IH]; [auto|]. intros H. cbn [filter]. rewrite (H x (or_introl eq_refl)), IH by (intros; apply H; now right). reflexivity. Qed.
Lemma filter_less (f f' : Z -> bool) l w : NoDup l -> In w l -> f w = true -> f' w = false -> (forall x, In x l -> x <> w -> f' x = f x) ->
  length (filter f l) = S (length (filter f' l)).
Proof.
  induction l as [|y l IH]; intros Nd Hi F F' H; [destruct Hi|]. apply NoDup_cons_iff in Nd. destruct Nd as [Ny Nd]. cbn [filter].
  destruct (Z.eq_dec y w) as [->|Ne].
  - rewrite F, F'. cbn [length]. f_equal. f_equal. apply filter_same. intros x Hx. symmetry. apply H; [now right|]. intros ->. contradiction.
  - destruct Hi as [|Hi]; [contradiction|]. rewrite (H y) by (auto; now left). specialize (IH Nd Hi F F' ltac:(intros; apply H; auto; now right)).
    destruct (f y); cbn [length]; lia.
Qed.

Lemma sys_S n L : sys n L -> Z.of_nat (S n) <= N -> exists L', sys (S n) L'.
Proof.
  intros S Hn. set (R := N + Z.of_nat (Datatypes.S n)). set (c := Z.of_nat (Datatypes.S n)). assert (Pc : prim c) by (unfold GeoP.prim, c; lia).
  assert (HR : isroot R) by (unfold GeoP.isroot, R; lia).
  assert (PP : forall x, x <> R -> part_prim h (Datatypes.S n) x = part_prim h n x).
  { intros x Nx. unfold part_prim. destruct ((N <? x) && (x <=? N + Z.of_nat n)) eqn:E; [replace ((N <? x) && (x <=? N + Z.of_nat (Datatypes.S n))) with true by lia|
      replace ((N <? x) && (x <=? N + Z.of_nat (Datatypes.S n))) with false by (unfold R in Nx; lia)]; reflexivity. }
  assert (PR : part_prim h n R = R) by (unfold part_prim, R; replace ((N <? N + Z.of_nat (Datatypes.S n)) && (N + Z.of_nat (Datatypes.S n) <=? N + Z.of_nat n)) with false by lia; reflexivity).
  destruct (list_eq_dec Z.eq_dec (adj s R) []) as [EA|NA].
  - (* no such component *)
    assert (Er : rot s R = []) by (unfold rot; rewrite EA; now destruct (o s R)).
    assert (ER : forall x, rotn (Datatypes.S n) x = rotn n x) by (intros x; apply part_lists_skip; exact Er).
    exists L. constructor.
    + intros vs FS Hi. pose proof (sy_pc _ _ S vs FS Hi) as P. eapply pc_congr; [exact P|..].
      * intros x e _. now rewrite ER.
      * intros x Hx. rewrite ER. now apply (pc_rot _ _ _ _ P).
      * intros x t _ _. now rewrite ER.
      * intros x e Hx He. unfold nbn. apply PP. intros E. destruct (pc_twin _ _ _ _ P x e Hx He) as (_ & T & _). unfold nbn in T. rewrite E, PR in T.
        apply (part_in h (rot s) n R (twin e) Ch copies ltac:(lia)) in T. destruct T as (u & U1 & U2). unfold part_prim in U2.
        destruct ((N <? u) && (u <=? N + Z.of_nat n)) eqn:Q.
        -- pose proof (copies u ltac:(lia) ltac:(intros K; rewrite K in U1; destruct U1)). unfold R in U2. lia.
        -- subst u. rewrite Er in U1. destruct U1.
    + intros vs FS Hi A0. destruct (sy_ou _ _ S vs FS Hi A0) as (O & I1 & I2). exists O. split; [auto|]. intros y Hy. rewrite ER. auto.
    + apply S.
    + intros x. rewrite ER. apply S.
    + intros R' H1 H2. apply (sy_act _ _ S); [lia|auto].
    + rewrite (sy_len _ _ S). f_equal.
      * f_equal. apply filter_same. intros x _. destruct (Z.eq_dec x R) as [->|Ne]; [rewrite EA; cbn [nempty]; now rewrite !andb_false_r|]. f_equal. unfold R in Ne. lia.
      * f_equal. apply filter_same. intros x _. now rewrite ER.
  - (* the component of R joins its parent copy *)
    pose proof (act_c c Pc NA) as Npc. destruct (Hp c Pc Npc) as [Pz Lz]. set (Z0 := p c) in *.
    assert (EP : primary_of h R = Z0) by (unfold primary_of; replace (R <=? N) with false by (unfold R; lia); unfold Z0; f_equal; unfold R, c; lia).
    assert (Nr : rot s R <> []) by now apply rot_ne.
    assert (EQ : forall x, rotn (Datatypes.S n) x = if x =? Z0 then rotn n R ++ rotn n Z0 else if x =? R then [] else rotn n x).
    { intros x. destruct (Z_le_dec 1 x) as [H1|H1]; [destruct (Z_le_dec x (2 * N)) as [H2|H2]|].
      - unfold rotn. rewrite (part_lists_S h (rot s) n x Hn copies); [|unfold is_vertex; lia|exact Nr]. fold R. rewrite EP. unfold merged_lists, upd. reflexivity.
      - assert (X0 : forall m, rotn m x = []).
        { intros m. unfold rotn, part_lists. replace (x <=? N) with false by (unfold GeoP.prim in Pc; lia).
          rewrite (ch_out _ _ Ch) by (unfold is_vertex; lia). now destruct (x <=? _). }
        rewrite !X0. unfold GeoP.prim in Pz. replace (x =? Z0) with false by lia. now destruct (x =? R).
      - assert (X0 : forall m, Z.of_nat m <= N -> rotn m x = []).
        { intros m Hm. destruct (rotn m x) as [|e l] eqn:E; [reflexivity|]. exfalso.
          assert (He : In e (rotn m x)) by (rewrite E; now left). apply (part_in h (rot s) m x e Ch copies Hm) in He. destruct He as (u & U1 & U2).
          pose proof (ch_isvertex _ _ _ _ Ch U1) as V. unfold is_vertex in V. unfold part_prim in U2. destruct ((N <? u) && (u <=? N + Z.of_nat m)) eqn:Q; [|lia].
          pose proof (copies u ltac:(lia) ltac:(intros K; rewrite K in U1; destruct U1)). lia. }
        rewrite !X0 by lia. unfold GeoP.prim in Pz. replace (x =? Z0) with false by lia. now destruct (x =? R). }
    assert (NZR : Z0 <> R) by (unfold GeoP.prim in *; unfold R; lia).
    assert (EN : forall e, nbn (Datatypes.S n) e = if nbn n e =? R then Z0 else nbn n e).
    { intros e. unfold nbn. destruct (Z.eq_dec (nb s e) R) as [->|Ne].
      - rewrite PR, Z.eqb_refl. unfold part_prim. replace ((N <? R) && (R <=? N + Z.of_nat (Datatypes.S n))) with true by (unfold R; lia). exact EP.
      - rewrite PP by auto. destruct (Z.eqb_spec (part_prim h n (nb s e)) R) as [E|]; [|reflexivity]. exfalso. unfold part_prim in E.
        destruct ((N <? nb s e) && (nb s e <=? N + Z.of_nat n)) eqn:Q; [|congruence].
        unfold primary_of in E. replace (nb s e <=? N) with false in E by lia.
        assert (Pe : prim (nb s e - N)) by (unfold GeoP.prim; lia). destruct (Z.eq_dec (p (nb s e - N)) NIL) as [E'|Ne'].
        + rewrite E' in E. unfold R, NIL in E. lia.
        + destruct (Hp _ Pe Ne') as [K _]. rewrite E in K. unfold GeoP.prim, GeoP.isroot in *. lia. }
    destruct (sy_act _ _ S R ltac:(unfold R; lia) NA) as [F2 H2].
    assert (NoZ : forall R', R <= R' <= 2 * N -> ~ In Z0 (vsof s R')) by (intros R' HR'; apply (parent_block c R' Pc Npc); [unfold GeoP.isroot; unfold R in HR'; lia|unfold R in HR'; unfold c; lia]).
    assert (Ac : length (acts n) = Datatypes.S (length (acts (Datatypes.S n)))).
    { unfold acts. apply (filter_less _ _ _ R).
      - apply NoDup_zrange.
      - apply in_zrange. unfold R. lia.
      - apply nempty_true in NA. rewrite NA. unfold R. lia.
      - unfold R. lia.
      - intros x _ Ne. unfold R in Ne. f_equal. lia. }
    assert (Rp : forall r, prim r -> r <> Z0 -> rotn (Datatypes.S n) r = rotn n r).
    { intros r Pr Ne. rewrite EQ, (eqb_false_neq r Z0) by auto. rewrite eqb_false_neq; [reflexivity|]. unfold GeoP.prim in Pr. unfold R. lia. }
    assert (rotnR : rotn n R = rot s R).
    { unfold rotn, part_lists, R. replace (N + Z.of_nat (Datatypes.S n) <=? N) with false by lia. replace (N + Z.of_nat (Datatypes.S n) <=? N + Z.of_nat n) with false by lia. reflexivity. }
    assert (Keep : forall vs FS, pc (nbn n) (rotn n) vs FS -> ~ In Z0 vs -> ~ In R vs -> pc (nbn (Datatypes.S n)) (rotn (Datatypes.S n)) vs FS).
    { intros vs FS P N1 N2. assert (E : forall x, In x vs -> rotn (Datatypes.S n) x = rotn n x).
      { intros x Hx. rewrite EQ, !eqb_false_neq by (intros ->; contradiction). reflexivity. }
      eapply pc_congr; [exact P|..].
      - intros x e Hx. now rewrite E.
      - intros x Hx. rewrite E by auto. now apply (pc_rot _ _ _ _ P).
      - intros x t Hx _. now rewrite E.
      - intros x e Hx He. rewrite EN, eqb_false_neq; [reflexivity|]. intros K. apply N2. rewrite <- K. apply (pc_twin _ _ _ _ P x e Hx He). }
    assert (KeepO : forall vs FS, ou (rotn n) vs FS -> ~ In Z0 vs -> ~ In R vs -> ou (rotn (Datatypes.S n)) vs FS).
    { intros vs FS (O & I1 & I2) N1 N2. exists O. split; [auto|]. intros y Hy. rewrite EQ, !eqb_false_neq by (intros ->; contradiction). auto. }
    destruct (list_eq_dec Z.eq_dec (rotn n Z0) []) as [EZ|NZ].
    + (* the parent copy had no arcs *)
      assert (RZ : p Z0 = NIL).
      { destruct (Z.eq_dec (p Z0) NIL) as [|Ne]; [auto|]. exfalso. pose proof (nonroot_arcs Z0 Pz Ne) as Q. apply rot_ne in Q. apply Q.
        unfold rotn, part_lists in EZ. unfold GeoP.prim in Pz. replace (Z0 <=? N) with true in EZ by lia. apply app_eq_nil in EZ. apply EZ. }
      destruct (in_perm _ _ H2) as [L' PL]. pose proof (sys_perm _ _ _ S PL) as S'. clear S PL H2 L. rename S' into S.
      pose proof (sy_nd _ _ S) as Nd. cbn [map concat fst] in Nd.
      assert (Ns : forall vs FS, In (vs, FS) L' -> ~ In Z0 vs /\ ~ In R vs).
      { intros vs FS Hi. assert (Hc : forall x, In x vs -> In x (concat (map fst L'))) by (intros x Hx; apply in_concat; exists vs; split; [apply (in_map fst) in Hi; exact Hi|auto]). split.
        - intros Hz. assert (Q : In Z0 (concat (map fst ((vsof s R, F2) :: L')))) by (cbn [map concat fst]; apply in_app_iff; right; auto). apply (sy_in _ _ S) in Q. contradiction.
        - intros Hr. apply (NoDup_app_disj _ _ R Nd); [now left|auto]. }
      exists ((Z0 :: mem N s R, F2) :: L'). constructor.
      * intros vs FS [E|Hi].
        -- inversion E. subst vs FS. eapply (pc_rename (nbn n) (rotn n) R); [apply (sy_pc _ _ S); left; reflexivity|..].
           ++ intros Q. apply (NoZ R); [unfold R; lia|now right].
           ++ rewrite EQ, Z.eqb_refl, EZ. apply app_nil_r.
           ++ intros x Hx. apply Rp; [apply in_mem in Hx; apply Hx|]. intros ->. apply (NoZ R); [unfold R; lia|now right].
           ++ intros x e _ _. apply EN.
        -- destruct (Ns vs FS Hi). apply Keep; auto. apply (sy_pc _ _ S). now right.
      * intros vs FS [E|Hi] A0.
        -- inversion E. subst vs FS. destruct (sy_ou _ _ S _ _ (or_introl eq_refl) A0) as (O & I1 & I2). exists O. split; [auto|]. intros y [<-|Hy].
           ++ rewrite EQ, Z.eqb_refl, EZ, app_nil_r. apply I2. now left.
           ++ rewrite Rp; [apply I2; now right|apply in_mem in Hy; apply Hy|]. intros ->. apply (NoZ R); [unfold R; lia|now right].
        -- destruct (Ns vs FS Hi). apply KeepO; auto. apply (sy_ou _ _ S); [now right|auto].
      * cbn [map concat fst]. unfold GeoP.vsof in Nd. cbn [app] in *. apply NoDup_cons_iff in Nd. constructor; [|apply Nd].
        intros Q. assert (Q' : In Z0 (concat (map fst ((vsof s R, F2) :: L')))) by (cbn [map concat fst]; unfold GeoP.vsof; right; exact Q). apply (sy_in _ _ S) in Q'. contradiction.
      * intros x. pose proof (sy_in _ _ S x) as I. cbn [map concat fst] in *. unfold GeoP.vsof in I. cbn [app In] in *. rewrite EQ.
        destruct (Z.eqb_spec x Z0) as [->|Nx].
        -- split; [|auto]. intros _. rewrite rotnR. destruct (rot s R); [congruence|discriminate].
        -- destruct (Z.eqb_spec x R) as [->|Nx'].
           ++ split; [|congruence]. intros [Q|Q]; [congruence|]. exfalso. unfold GeoP.vsof in Nd. cbn [app] in Nd. apply NoDup_cons_iff in Nd. apply (proj1 Nd). exact Q.
           ++ rewrite <- I. split; intros [Q|Q]; auto; congruence.
      * intros R' H1 H3. destruct (sy_act _ _ S R' ltac:(lia) H3) as [FS [Q|Q]]; [|exists FS; now right].
        exfalso. assert (K : vsof s R = vsof s R') by congruence. unfold GeoP.vsof in K. assert (R = R') by congruence. unfold R in *. lia.
      * pose proof (sy_len _ _ S) as Le. cbn [length] in *. assert (length (rts (Datatypes.S n)) = Datatypes.S (length (rts n))); [|lia].
        unfold rts. apply (filter_less _ _ _ Z0).
        -- apply NoDup_zrange.
        -- apply in_zrange. unfold GeoP.prim in Pz. lia.
        -- rewrite RZ, EQ, !Z.eqb_refl, rotnR. cbn [andb]. apply nempty_true. destruct (rot s R); [congruence|discriminate].
        -- rewrite EZ. apply andb_false_r.
        -- intros x Hx Ne. rewrite Rp; auto. apply in_zrange in Hx. unfold GeoP.prim. lia.
    + (* two systems are joined *)
      apply (sy_in _ _ S) in NZ. apply in_concat in NZ as (vs1 & Hv & HZ). apply in_map_iff in Hv as ((vs1', F1) & E & H1). cbn [fst] in E. subst vs1'.
      destruct (in_perm _ _ H2) as [L1 PL]. pose proof (Permutation_in _ PL H1) as [Q|H1'].
      { exfalso. inversion Q. subst vs1. apply (NoZ R); [unfold R; lia|auto]. }
      destruct (in_perm _ _ H1') as [L' PL']. assert (PL2 : Permutation L ((vs1, F1) :: (vsof s R, F2) :: L')).
      { eapply Permutation_trans; [exact PL|]. eapply Permutation_trans; [apply perm_skip; exact PL'|]. apply perm_swap. }
      pose proof (sys_perm _ _ _ S PL2) as S'. clear S PL PL2 PL' H1 H1' H2 L L1. rename S' into S.
      pose proof (sy_nd _ _ S) as Nd. cbn [map concat fst] in Nd.
      pose proof (sy_pc _ _ S vs1 F1 (or_introl eq_refl)) as P1. pose proof (sy_pc _ _ S (vsof s R) F2 (or_intror (or_introl eq_refl))) as P2.
      assert (NZ : rotn n Z0 <> []) by (apply (sy_in _ _ S); cbn [map concat fst]; apply in_app_iff; now left).
      assert (Dj : forall x, In x vs1 -> ~ In x (vsof s R)) by (intros x Hx Hx'; apply (NoDup_app_disj _ _ x Nd Hx); apply in_app_iff; now left).
      assert (Ns : forall vs FS, In (vs, FS) L' -> ~ In Z0 vs /\ ~ In R vs).
      { intros vs FS Hi. assert (Hc : forall x, In x vs -> In x (concat (map fst L'))) by (intros x Hx; apply in_concat; exists vs; split; [apply (in_map fst) in Hi; exact Hi|auto]). split.
        - intros Hz. apply (NoDup_app_disj _ _ Z0 Nd HZ). apply in_app_iff. right. auto.
        - intros Hr. apply NoDup_app_r in Nd. apply (NoDup_app_disj _ _ R Nd); [now left|auto]. }
      assert (rotn_disj : forall x y e, In e (rotn n x) -> In e (rotn n y) -> x = y).
      { intros x y e H1 H3. apply (part_in h (rot s) n _ _ Ch copies ltac:(lia)) in H1, H3. destruct H1 as (u & U1 & U2), H3 as (w & W1 & W2).
        rewrite (ch_disj _ _ Ch _ _ _ U1 W1) in U2. congruence. }
      destruct (pc_join (nbn n) (rotn n) vs1 F1 R (mem N s R) F2 Z0 (nbn (Datatypes.S n)) (rotn (Datatypes.S n))) as (FS & PF & PO); auto.
      * intros x y e Hx Hy He He'. apply (Dj x Hx). rewrite (rotn_disj _ _ _ He He'). exact Hy.
      * rewrite rotnR. auto.
      * now rewrite EQ, Z.eqb_refl.
      * intros x Hx Ne. rewrite EQ, eqb_false_neq by auto. rewrite eqb_false_neq; [reflexivity|]. intros ->. apply (Dj R Hx). now left.
      * intros x Hx. apply Rp; [apply in_mem in Hx; apply Hx|]. intros ->. apply (NoZ R); [unfold R; lia|now right].
      * exists ((vs1 ++ mem N s R, FS) :: L'). constructor.
        -- intros vs FS' [E|Hi]; [inversion E; subst; exact PF|]. destruct (Ns vs FS' Hi). apply Keep; auto. apply (sy_pc _ _ S). right. now right.
        -- intros vs FS' [E|Hi] A0; [inversion E; subst; apply PO; apply (sy_ou _ _ S); auto; [now left|right; now left]|]. destruct (Ns vs FS' Hi). apply KeepO; auto. apply (sy_ou _ _ S); auto. right. now right.
        -- cbn [map concat fst]. rewrite <- app_assoc. unfold GeoP.vsof in Nd. cbn [app] in Nd. apply NoDup_mid in Nd. apply Nd.
        -- intros x. pose proof (sy_in _ _ S x) as I. cbn [map concat fst] in *. unfold GeoP.vsof in I. cbn [app In] in *. rewrite EQ.
           rewrite !in_app_iff in *. cbn [In] in I. rewrite in_app_iff in I. destruct (Z.eqb_spec x Z0) as [->|Nx].
           ++ split; [|auto]. intros _. rewrite rotnR. destruct (rot s R); [congruence|discriminate].
           ++ destruct (Z.eqb_spec x R) as [->|Nx'].
              ** split; [|congruence]. intros Q. exfalso. unfold GeoP.vsof in Nd. cbn [app] in Nd. apply NoDup_mid in Nd. apply (proj2 Nd). rewrite !in_app_iff. tauto.
              ** rewrite <- I. split; [tauto|]. intros Q. assert (R <> x) by congruence. tauto.
        -- intros R' H1 H3. destruct (sy_act _ _ S R' ltac:(lia) H3) as [FS' [Q|[Q|Q]]]; [| |exists FS'; now right].
           ++ exfalso. inversion Q. subst vs1. apply (NoZ R'); [unfold R; lia|auto].
           ++ exfalso. assert (K : vsof s R = vsof s R') by congruence. unfold GeoP.vsof in K. assert (R = R') by congruence. unfold R in *. lia.
        -- pose proof (sy_len _ _ S) as Le. cbn [length] in *. assert (length (rts (Datatypes.S n)) = length (rts n)); [|lia].
           unfold rts. f_equal. apply filter_same. intros x Hx. destruct (Z.eq_dec x Z0) as [->|Ne].
           ++ f_equal. rewrite EQ, Z.eqb_refl, rotnR. apply nempty_true in NZ. rewrite NZ. apply nempty_true. destruct (rot s R); [congruence|discriminate].
           ++ rewrite Rp; auto. apply in_zrange in Hx. unfold GeoP.prim. lia.
Qed.
Lemma sys_all n : Z.of_nat n <= N -> exists L, sys n L.
Proof. induction n as [|n IH]; intros H; [apply sys_0|]. destruct IH as [L S]; [lia|]. eapply sys_S; eauto. Qed.
(** ** The joined graph *)
Variable k : graph.
Local Notation NN := (Z.to_nat N).
Hypothesis HN : 0 <= N.
Hypothesis J : part_joined h k (rot s) NN.
Hypothesis Rk : rep k (rotn NN).

Lemma root_of z : prim z -> exists r, prim r /\ p r = NIL /\ ancestor p r z.
Proof.
  intros Hz. remember (Z.to_nat z) as n eqn:E. revert z E Hz. induction n as [n IH] using lt_wf_ind. intros z -> Hz.
  destruct (Z.eq_dec (p z) NIL) as [E|Ne]; [exists z; repeat split; auto; try apply Hz; constructor|].
  destruct (Hp z Hz Ne) as [H1 H2]. destruct (IH (Z.to_nat (p z)) ltac:(unfold GeoP.prim in *; lia) (p z) eq_refl H1) as (r & R1 & R2 & R3).
  exists r. split; [auto|]. split; [auto|]. now apply anc_step.
Qed.
Lemma root_up r z : p r = NIL -> p z <> NIL -> ancestor p r z <-> ancestor p r (p z).
Proof. intros Hr Hz. split; [|intros; now apply anc_step]. intros H. inversion H; subst; [congruence|auto]. Qed.
Lemma root_anc r c z : p r = NIL -> p c <> NIL -> ancestor p c z -> ancestor p r z <-> ancestor p r c.
Proof. intros Hr Hc. induction 1 as [|v Hv H IH]; [tauto|]. rewrite <- IH. apply root_up; auto. Qed.
Lemma root_unique r r' z : p r = NIL -> p r' = NIL -> ancestor p r z -> ancestor p r' z -> r = r'.
Proof.
  intros Hr Hr' H. induction H as [|v Hv H IH]; intros H'.
  - inversion H'; subst; [auto|congruence].
  - apply IH. apply root_up in H'; auto.
Qed.
Lemma nbk x e : In e (rot s x) -> enbr k e = nbn NN e.
Proof.
  intros He. apply in_rot in He. destruct (g_twins _ _ _ G0 _ _ He) as [T1 T2]. apply in_rot in T2.
  rewrite <- (twin_invol e). rewrite (pj_enbr _ _ _ _ J _ _ T2). unfold nbn. now rewrite twin_invol.
Qed.
Lemma rotn_in x e : In e (rotn NN x) <-> exists u, In e (rot s u) /\ part_prim h NN u = x.
Proof. apply (part_in h (rot s) NN x e Ch copies). lia. Qed.
Lemma pp_prim x : prim x -> part_prim h NN x = x.
Proof. intros H. unfold part_prim, GeoP.prim in *. replace ((N <? x) && (x <=? N + Z.of_nat NN)) with false by lia. reflexivity. Qed.
Lemma pp_virt c : prim c -> part_prim h NN (N + c) = p c.
Proof.
  intros H. unfold part_prim, primary_of, GeoP.prim in *. replace ((N <? N + c) && (N + c <=? N + Z.of_nat NN)) with true by lia.
  replace (N + c <=? N) with false by lia. f_equal. lia.
Qed.
Lemma block_root r c x : p r = NIL -> prim c -> p c <> NIL -> In x (vsof s (N + c)) -> ancestor p r (part_prim h NN x) <-> ancestor p r c.
Proof.
  intros Hr Pc Nc Hx. apply in_vsof in Hx. destruct Hx as [->|[Px Bx]].
  - rewrite pp_virt by auto. symmetry. now apply root_up.
  - rewrite pp_prim by auto. assert (Nx : p x <> NIL).
    { intros E. destruct (g_B0 _ _ _ G0 x Px E) as (Q & _). unfold GeoP.prim, NIL in *. lia. }
    destruct (B_spec _ _ Hp _ _ _ x G Px Nx) as (d & D1 & D2 & D3 & D4 & D5). assert (d = c) by lia. subst d. now apply root_anc.
Qed.
Lemma conn_root r a b : p r = NIL -> connected k (rotn NN) a b -> ancestor p r a -> ancestor p r b.
Proof.
  intros Hr. induction 1 as [|w e C IH He]; [auto|]. intros Ha. specialize (IH Ha). apply rotn_in in He. destruct He as (u & U1 & U2).
  rewrite (nbk u e U1). apply in_rot in U1. destruct (arc_home _ _ Hp _ _ _ u e G U1) as (R & H1 & H2 & H3).
  pose proof (arc_comp _ _ _ _ _ R u e G H1 H2 H3 U1) as H4. assert (exists c, R = N + c /\ prim c) as (c & -> & Pc).
  { exists (R - N). unfold GeoP.isroot, GeoP.prim in *. split; lia. }
  pose proof (act_c c Pc H2) as Nc. apply (block_root r c _ Hr Pc Nc H4). apply (block_root r c _ Hr Pc Nc H3). rewrite U2. exact IH.
Qed.
Lemma tree_conn z : prim z -> p z <> NIL -> connected k (rotn NN) (p z) z.
Proof.
  intros Pz Nz. destruct (g_child _ _ _ G0 z Pz Nz) as (e & C1 & C2 & C3).
  assert (exists x, In e (adj s x) /\ part_prim h NN x = p z) as (x & X1 & X2).
  { revert C3. destruct (adj s (N + z)) as [|e1 l1] eqn:EA; intros C3.
    - exists (p z). split; [exact C3|]. apply pp_prim. now apply Hp.
    - exists (N + z). split; [rewrite EA in *; exact C3|]. now apply pp_virt. }
  apply in_rot in X1. pose proof (nbk x e X1) as E. unfold nbn in E. rewrite C2, pp_prim in E by auto. 
  pose proof (conn_step k (rotn NN) (p z) (p z) e (conn_refl _ _ _)) as Q. rewrite E in Q. apply Q. apply rotn_in. eauto.
Qed.
Lemma anc_conn r z : prim z -> ancestor p r z -> connected k (rotn NN) r z.
Proof.
  intros Pz H. revert Pz. induction H as [|v Hv H IH]; intros Pz; [constructor|]. destruct (Hp v Pz Hv) as [H1 _].
  eapply connected_trans; [apply IH; auto|]. now apply tree_conn.
Qed.
Lemma joined_roots : one_root_each k (rotn NN).
Proof.
  pose proof (pj_core _ _ _ _ J) as F. unfold one_root_each, primary, par. rewrite (fc_N _ _ F), (fc_VI _ _ F). intros v Hv.
  destruct (root_of v Hv) as (r & R1 & R2 & R3). exists r. split; [exact R1|]. split; [exact R2|]. split; [now apply anc_conn|].
  intros r' H1 H2 H3. assert (A : ancestor p r' v) by (eapply conn_root; eauto; constructor). exact (root_unique r' r v H2 R2 A R3).
Qed.

(** In outerplanar mode the face at the first arc of the root of each tree visits all the vertices of the tree. *)
Theorem joined_outer : allX -> all_outer k (rotn NN).
Proof.
  intros A0. pose proof (pj_core _ _ _ _ J) as F. destruct (sys_all NN ltac:(lia)) as [L S]. unfold all_outer, primary, par. rewrite (fc_N _ _ F), (fc_VI _ _ F). intros v Hv.
  destruct (root_of v Hv) as (r & R1 & R2 & R3). exists r. split; [exact R1|]. split; [exact R2|]. pose proof (anc_conn r v Hv R3) as C. unfold on_first_face.
  destruct (rotn NN r) as [|e l] eqn:Er.
  - assert (Q : forall a b, connected k (rotn NN) a b -> rotn NN a = [] -> b = a).
    { intros a b. induction 1 as [|w e C' IH He]; [auto|]. intros E. rewrite IH in He by auto. rewrite E in He. destruct He. }
    exact (Q r v C Er).
  - assert (Nr : rotn NN r <> []) by (rewrite Er; discriminate). apply (sy_in _ _ S) in Nr. apply in_concat in Nr as (vs & Hv' & Hr). apply in_map_iff in Hv' as ((vs', FS) & E & Hi). cbn [fst] in E. subst vs'.
    pose proof (sy_pc _ _ S vs FS Hi) as P0. assert (P : pc (enbr k) (rotn NN) vs FS).
    { eapply pc_congr; [exact P0|tauto|apply (pc_rot _ _ _ _ P0)|auto|]. intros x e0 _ He. apply rotn_in in He. destruct He as (u & U1 & _). now apply (nbk u). }
    assert (Iv : In v vs).
    { clear R3. induction C as [|w e0 C IH He]; [auto|]. apply (pc_twin _ _ _ _ P w e0); [|auto]. apply IH. apply rotn_in in He. destruct He as (u & U1 & U2). pose proof (ch_isvertex _ _ _ _ Ch U1) as V. unfold is_vertex in V.
      unfold part_prim in U2. unfold GeoP.prim. destruct ((N <? u) && (u <=? N + Z.of_nat NN)) eqn:Q; [|lia]. pose proof (copies u ltac:(lia) ltac:(intros K; rewrite K in U1; destruct U1)). lia. }
    destruct (sy_ou _ _ S vs FS Hi A0) as (O & I1 & I2). pose proof (pc_closed _ _ _ _ P O I1) as Cl.
    assert (Nv : rotn NN v <> []) by (apply (sy_in _ _ S), in_concat; exists vs; split; [apply (in_map fst) in Hi; exact Hi|auto]).
    exists (hd NIL (rotn NN v)). split; [|now apply hd_in]. specialize (I2 r Hr) as Ir. rewrite Er in Ir. cbn [hd] in Ir.
    destruct (face_two _ _ _ _ Cl Ir (I2 v Iv)) as [m Em]. exists m. exact Em.
Qed.

Lemma sum_euler (L : list (list Z * list (list Z))) (nb0 : Z -> Z) (rot0 : Z -> list Z) : (forall vs FS, In (vs, FS) L -> pc nb0 rot0 vs FS) ->
  2 * Z.of_nat (length (concat (map snd L))) =
  Z.of_nat (length (concat (concat (map snd L)))) - 2 * Z.of_nat (length (concat (map fst L))) + 4 * Z.of_nat (length L).
Proof.
  induction L as [|(vs, FS) L IH]; intros H; [reflexivity|]. cbn [map concat fst snd length]. rewrite concat_app, !app_length.
  specialize (IH ltac:(intros; apply H; now right)). pose proof (pc_euler _ _ _ _ (H vs FS (or_introl eq_refl))). lia.
Qed.
Lemma count_compl {A} (f : A -> bool) l : (length (filter f l) + length (filter (fun x => negb (f x)) l) = length l)%nat.
Proof. induction l as [|x l IH]; [reflexivity|]. cbn [filter]. destruct (f x); cbn [negb length]; lia. Qed.
Theorem joined_euler : euler k (rotn NN).
Proof.
  pose proof (pj_core _ _ _ _ J) as F. destruct (sys_all NN ltac:(lia)) as [L S]. pose proof joined_roots as Rt.
  assert (P : forall vs FS, In (vs, FS) L -> pc (enbr k) (rotn NN) vs FS).
  { intros vs FS Hi. pose proof (sy_pc _ _ S vs FS Hi) as P. eapply pc_congr; [exact P|tauto|apply (pc_rot _ _ _ _ P)|auto|].
    intros x e _ He. apply rotn_in in He. destruct He as (u & U1 & _). now apply (nbk u). }
  set (FS := concat (map snd L)).
  assert (Ar : forall e, In e (concat FS) <-> is_arc (rotn NN) e).
  { intros e. unfold FS. rewrite in_concat. split.
    - intros (l & Hl & He). apply in_concat in Hl as (F1 & HF & Hl). apply in_map_iff in HF as ((vs, F1') & E & Hi). cbn [snd] in E. subst F1'.
      assert (Q : In e (concat F1)) by (apply in_concat; eauto). apply (pc_arcs _ _ _ _ (P vs F1 Hi)) in Q as (x & _ & Hx). exists x. exact Hx.
    - intros (x & Hx). assert (Nx : rotn NN x <> []) by (intros E; rewrite E in Hx; destruct Hx). apply (sy_in _ _ S) in Nx.
      apply in_concat in Nx as (vs & Hv & Hxv). apply in_map_iff in Hv as ((vs', F1) & E & Hi). cbn [fst] in E. subst vs'.
      assert (Q : In e (concat F1)) by (apply (pc_arcs _ _ _ _ (P vs F1 Hi)); eauto). apply in_concat in Q as (l & Hl & He). exists l. split; [|auto].
      apply in_concat. exists F1. split; [|auto]. apply (in_map snd) in Hi. exact Hi. }
  assert (Nd : NoDup (concat FS)).
  { pose proof (sy_nd _ _ S) as Nv. unfold FS. clear - P Nv Rk. induction L as [|(vs, F1) L IH]; [constructor|]. cbn [map concat fst snd] in *.
    rewrite concat_app. apply NoDup_app_intro.
    - apply (pc_nodup _ _ _ _ (P vs F1 (or_introl eq_refl))).
    - apply IH; [intros; apply P; now right|]. eapply NoDup_app_r; exact Nv.
    - intros e H1 H2. apply (pc_arcs _ _ _ _ (P vs F1 (or_introl eq_refl))) in H1 as (x & Hx & He).
      apply in_concat in H2 as (l & Hl & H2). apply in_concat in Hl as (F2 & HF & Hl). apply in_map_iff in HF as ((vs2, F2') & E & Hi). cbn [snd] in E. subst F2'.
      assert (Q : In e (concat F2)) by (apply in_concat; eauto). apply (pc_arcs _ _ _ _ (P vs2 F2 (or_intror Hi))) in Q as (y & Hy & He').
      rewrite (ch_disj _ _ (rep_chains _ _ Rk) _ _ _ He He') in Hx. apply (NoDup_app_disj _ _ y Nv Hx). apply in_concat. exists vs2. split; [|auto].
      apply (in_map fst) in Hi. exact Hi. }
  assert (Cl : forall l, In l FS -> fclosed (face_step k (rotn NN)) l).
  { intros l Hl. apply in_concat in Hl as (F1 & HF & Hl). apply in_map_iff in HF as ((vs, F1') & E & Hi). cbn [snd] in E. subst F1'. apply (pc_closed _ _ _ _ (P vs F1 Hi)). exact Hl. }
  exists (Z.of_nat (length FS)), (Z.of_nat (length (filter (rootb k) (zrange 1 (Z.to_nat (gN k)))))).
  split; [now apply count_faces|]. split; [now apply comps_ok|]. rewrite (roots_isolated k (rotn NN) Rk Rt).
  pose proof (sum_euler L _ _ P) as Eu. fold FS in Eu.
  assert (Le : Z.of_nat (length (concat FS)) = 2 * gM k).
  { rewrite <- (all_arcs_length k (rotn NN) Rk). f_equal. apply Permutation_length, NoDup_Permutation; auto; [apply NoDup_all_arcs, Rk|].
    intros e. rewrite Ar. symmetry. apply (arc_L k (rotn NN) Rk). }
  assert (Lv : length (concat (map fst L)) = length (filter (nonempty (rotn NN)) (zrange 1 NN))).
  { apply Permutation_length, NoDup_Permutation; [apply S|apply NoDup_filter, NoDup_zrange|]. intros x. rewrite (sy_in _ _ S), filter_In, in_zrange.
    unfold nonempty. split; [|intros [_ Q] E; rewrite E in Q; discriminate]. intros Nx. split; [|destruct (rotn NN x); [congruence|reflexivity]].
    destruct (rotn NN x) as [|e l] eqn:E; [congruence|]. assert (He : In e (rotn NN x)) by (rewrite E; now left). apply rotn_in in He. destruct He as (u & U1 & U2).
    pose proof (ch_isvertex _ _ _ _ Ch U1) as V. unfold is_vertex in V. unfold part_prim in U2. destruct ((N <? u) && (u <=? N + Z.of_nat NN)) eqn:Q; [|lia].
    pose proof (copies u ltac:(lia) ltac:(intros K; rewrite K in U1; destruct U1)). lia. }
  assert (Ll : length L = length (filter (fun v => rootb k v && nonempty (rotn NN) v) (zrange 1 NN))).
  { rewrite (sy_len _ _ S). assert (EA : acts NN = []).
    { destruct (acts NN) as [|R l] eqn:E; [reflexivity|]. exfalso. assert (Hr : In R (R :: l)) by now left. rewrite <- E in Hr. unfold acts in Hr.
      apply filter_In in Hr as [H1 H2]. apply in_zrange in H1. lia. }
    rewrite EA. cbn [length Nat.add]. unfold rts. f_equal. apply filter_same. intros x _. unfold rootb, par, nonempty, nempty. now rewrite (fc_VI _ _ F). }
  pose proof (count_compl (nonempty (rotn NN)) (zrange 1 NN)) as Cc. rewrite zrange_length in Cc.
  assert (Ni : num_isolated k (rotn NN) = Z.of_nat (length (filter (fun x => negb (nonempty (rotn NN) x)) (zrange 1 NN)))).
  { unfold num_isolated. rewrite (fc_N _ _ F). f_equal. f_equal.
    replace (map Z.of_nat (seq 1 NN)) with (zrange 1 NN).
    - apply filter_ext. intros v. unfold nonempty. destruct (rotn NN v); reflexivity.
    - unfold zrange. rewrite <- seq_shift, map_map. apply map_ext. intros; lia. }
  rewrite (fc_N _ _ F) in *. rewrite Ni. lia.
Qed.
End Euler.
