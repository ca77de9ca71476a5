(** * EmbWalk: the invariants of the embedder loop. *)
From Coq Require Import ZifyBool Permutation Sorted.
From Verif Require Import Base BaseP GraphRec GraphM GraphSpec GSimp LinkP GraphP GraphP2 ListM ListSpec ListP DFSM DFSSpec DFSP TestP EmbM EmbSpec EmbP FaceP GeoP GeoP2 EmbInv EmbStep EmbTree.

Section Walk.
Variables (g0 : graph) (kids : Z -> list Z).
Hypothesis St : static g0 kids.
Local Notation N := (gN g0).
Local Notation p := (viParent (gVI g0)).
Local Notation prim := (prim (gN g0)).
Local Notation isroot := (isroot (gN g0)).
Local Notation geo := (geo (gN g0) (viParent (gVI g0))).
Local Notation anc := (ancestor (viParent (gVI g0))).
Local Notation via := (via g0).
Local Notation act := (act g0).
Local Notation rp := (rp g0).
Local Notation HP := (Hp g0 kids St).

(** Forward arcs still to be embedded. *)
Record fwok (a : est) : Prop := {
  fo_via : forall u f, In f (fw a u) -> exists c, via u c (nb (eV a) f) /\ c <> nb (eV a) f;
  fo_twin : forall u f, In f (fw a u) -> nb (eV a) (twin f) = u;
  fo_free : forall u f x, In f (fw a u) -> ~ In f (adj (eV a) x) /\ ~ In (twin f) (adj (eV a) x);
  fo_tw : forall u u' f, In f (fw a u) -> ~ In (twin f) (fw a u');
  fo_type : forall u f, In f (fw a u) -> ~ childarc (eV a) f /\ ~ childarc (eV a) (twin f);
  fo_sorted : forall u, StronglySorted (fun e e' => nb (eV a) e < nb (eV a) e') (fw a u);
  fo_la : forall u f, In f (fw a u) -> viLeast (gVI g0) (nb (eV a) f) <= u;
  fo_lp : forall u f c, In f (fw a u) -> prim c -> anc c (nb (eV a) f) -> viLow (gVI g0) c <= u }.
(** Future pertinent children: those passed over are merged or lead to no vertex before v. *)
Definition fpcok (v : Z) (a : est) : Prop := forall w, prim w ->
  exists l1 l2, kids w = l1 ++ l2 /\ fpc a w = hd NIL l2 /\ forall c, In c l1 -> ~ act (eV a) c \/ v <= viLow (gVI g0) c.
(** Everything needed to embed the forward arcs of the vertices before m is external. *)
Definition keep (m : Z) (a : est) : Prop := forall u f, u < m -> In f (fw a u) ->
  In (nb (eV a) f) (X (eV a) (B (eV a) (nb (eV a) f))) /\
  forall c, act (eV a) c -> anc c (nb (eV a) f) -> u < p c -> In (p c) (X (eV a) (B (eV a) (p c))).
Definition peok (v : Z) (a : est) : Prop := forall x, pe a x <> NIL -> In (pe a x) (fw a v) /\ nb (eV a) (pe a x) = x.
Definition prlok (v : Z) (a : est) : Prop := forall z c, In c (prl a z) ->
  p c = z /\ v <= z /\ act (eV a) c /\ exists f, In f (fw a v) /\ anc c (nb (eV a) f).
Definition actok (v k : Z) (a : est) : Prop := forall y, prim y -> p y <> NIL -> (p (p y) < v \/ p (p y) = v /\ k < p y) -> act (eV a) y.

(** Equal up to mirroring components. *)
Record fsim (s t : gv) : Prop := {
  fs_nb : nb t = nb s; fs_fl : fl t = fl s; fs_e0 : e0 t = e0 s; fs_e1 : e1 t = e1 s; fs_adj : adj t = adj s; fs_B : B t = B s;
  fs_X : forall R, X t R = X s R \/ X t R = rev (X s R);
  fs_o : forall R, isroot R -> X t R = X s R /\ (forall y, In y (vsof N s R) -> o t y = o s y) \/ X t R = rev (X s R) /\ (forall y, In y (vsof N s R) -> o t y = negb (o s y)) }.
Lemma fsim_refl s : fsim s s.
Proof. constructor; auto. Qed.
Lemma fsim_trans s t u : fsim s t -> fsim t u -> fsim s u.
Proof.
  intros [] []. constructor; try congruence.
  - intros R. destruct (fs_X0 R) as [E|E], (fs_X1 R) as [E'|E']; rewrite E', E; auto. left. apply rev_involutive.
  - intros R HR. assert (Ev : forall y, In y (vsof N t R) <-> In y (vsof N s R)) by (intros y; rewrite !in_vsof, fs_B0; tauto).
    destruct (fs_o0 R HR) as [[E K]|[E K]], (fs_o1 R HR) as [[E' K']|[E' K']]; rewrite E', E, ?rev_involutive; [left|right|right|left]; (split; [auto|]); intros y Hy; rewrite K' by (now apply Ev); rewrite K by auto; auto. now rewrite negb_involutive.
Qed.
Lemma fsim_in s t R x : fsim s t -> In x (X t R) <-> In x (X s R).
Proof. intros H. destruct (fs_X _ _ H R) as [-> | ->]; [tauto|]. symmetry. apply in_rev. Qed.
Lemma fsim_ends s t R (Q : Z -> Prop) : fsim s t -> Q (hd NIL (X s R)) \/ Q (last (X s R) NIL) -> Q (hd NIL (X t R)) \/ Q (last (X t R) NIL).
Proof. intros H. destruct (fs_X _ _ H R) as [-> | ->]; [tauto|]. rewrite hd_rev, last_rev. tauto. Qed.
Lemma fsim_act s t c : fsim s t -> act t c <-> act s c.
Proof. intros H. unfold EmbTree.act. rewrite (fs_adj _ _ H). tauto. Qed.
Lemma fsim_child s t e : fsim s t -> childarc t e <-> childarc s e.
Proof. intros H. unfold childarc. rewrite (fs_fl _ _ H). tauto. Qed.

(** A component can be taken in either orientation. *)
Lemma orient a stk g c x b : rp g a stk -> geo NIL [] (eV a) -> act (eV a) c -> In x (vsof N (eV a) (N + c)) ->
  exists V, rp g (set_V a V) stk /\ fsim (eV a) V /\ geo NIL [] V /\ o V x = b /\
    (forall y, ~ In y (vsof N (eV a) (N + c)) -> o V y = o (eV a) y) /\ (forall R, R <> N + c -> X V R = X (eV a) R).
Proof.
  intros H G Ac Hx. destruct (bool_dec (o (eV a) x) b) as [E|E].
  - exists (eV a). split; [destruct a; exact H|]. split; [apply fsim_refl|]. auto.
  - destruct Ac as (A1 & A2 & A3). assert (HR : isroot (N + c)) by (unfold GeoP.isroot, GeoP.prim in *; lia).
    exists (flip N (eV a) (N + c)). split; [|split; [|split; [|split; [|split]]]].
    + apply rp_ghost; auto.
    + constructor; cbn [flip nb fl e0 e1 adj B X]; auto; [intros R; destruct (Z.eqb_spec R (N + c)) as [->|]; auto|]. intros R HR'. destruct (Z.eqb_spec R (N + c)) as [->|Ne]; [right|left]; (split; [auto|]); intros y Hy.
      * now apply flip_in.
      * apply flip_out. intros Hy'. apply Ne. now apply (vsof_inj N (eV a) R (N + c) y).
    + now apply geo_flip.
    + rewrite flip_in by auto. destruct (o (eV a) x), b; auto; congruence.
    + intros y Hy. now apply flip_out.
    + intros R HR'. cbn [flip X]. now rewrite (eqb_false_neq _ _ HR').
Qed.

(** ** Counting *)
Lemma filter_le {A} (f h : A -> bool) l : (forall x, In x l -> f x = true -> h x = true) -> (length (filter f l) <= length (filter h l))%nat.
Proof.
  induction l as [|x l IH]; intros H; [auto|]. cbn [filter]. specialize (IH (fun y Hy => H y (or_intror Hy))).
  pose proof (H x (or_introl eq_refl)) as Hx. destruct (f x), (h x); cbn [length]; try lia; discriminate (Hx eq_refl).
Qed.
Lemma filter_lt {A} (f h : A -> bool) l z : (forall x, In x l -> f x = true -> h x = true) -> In z l -> f z = false -> h z = true ->
  (length (filter f l) < length (filter h l))%nat.
Proof.
  induction l as [|x l IH]; intros H Hz Fz Hh; [destruct Hz|]. cbn [filter].
  pose proof (filter_le f h l (fun y Hy => H y (or_intror Hy))) as Le. pose proof (H x (or_introl eq_refl)) as Hx.
  destruct Hz as [->|Hz].
  - rewrite Fz, Hh. cbn [length]. lia.
  - specialize (IH (fun y Hy => H y (or_intror Hy)) Hz Fz Hh). destruct (f x), (h x); cbn [length]; try lia; discriminate (Hx eq_refl).
Qed.
End Walk.
Arguments fs_nb {g0} s t.
Arguments fs_fl {g0} s t.
Arguments fs_e0 {g0} s t.
Arguments fs_e1 {g0} s t.
Arguments fs_adj {g0} s t.
Arguments fs_B {g0} s t.
Arguments fs_X {g0} s t.
Arguments fs_o {g0} s t.
Arguments fsim_refl {g0} s.
Arguments fsim_trans {g0} s t u.
Arguments fsim_in {g0} s t R x.
Arguments fsim_ends {g0} s t R Q.
Arguments fsim_child {g0} s t e.
