(** * EmbP: inverting a vertex, merging a root copy into its vertex, joining the bicomps. *)
From Coq Require Import ZifyBool Permutation.
From Verif Require Import Base BaseP GraphRec GraphM GraphSpec GSimp LinkP GraphP GraphP2 ListM DFSM TestM EmbM EmbSpec.

Definition inb (x : Z) (l : list Z) : bool := existsb (Z.eqb x) l.
Lemma inb_spec x l : reflect (In x l) (inb x l).
Proof.
  unfold inb. destruct (existsb (Z.eqb x) l) eqn:E; constructor.
  - apply existsb_exists in E. destruct E as (y & Hy & E). apply Z.eqb_eq in E. now subst y.
  - intros H. assert (existsb (Z.eqb x) l = true); [|congruence].
    apply existsb_exists. exists x. split; [auto|apply Z.eqb_refl].
Qed.

Lemma linked_rev nx pv l : forall p q, linked nx pv p l q -> linked pv nx q (rev l) p.
Proof.
  induction l as [|e l IH]; intros p q H; [exact Logic.I|].
  destruct H as (H1 & H2 & H3). cbn [rev]. apply linked_app. split.
  - cbn [hd]. apply IH. exact H3.
  - cbn [linked hd]. split; [|split; [exact H1|exact Logic.I]].
    rewrite H2. clear. destruct l as [|a l]; [reflexivity|]. cbn [rev hd].
    rewrite last_app_ne by discriminate. reflexivity.
Qed.


Lemma hd_rev_last {A} (l : list A) d : hd d (rev l) = last l d.
Proof.
  destruct (list_snoc l) as [->|(l' & x & ->)]; [reflexivity|].
  rewrite rev_app_distr, last_snoc. reflexivity.
Qed.
Lemma last_rev_hd {A} (l : list A) d : last (rev l) d = hd d l.
Proof. rewrite <- (rev_involutive l) at 2. now rewrite hd_rev_last. Qed.

(** ** _InvertVertex *)
Lemma invert_loop_ok : forall l n g p,
  linked (enext g) (eprev g) p l NIL -> NoDup l -> (forall e, In e l -> 2 <= e < gp_EdgeIndexBound g) ->
  (length l < n)%nat ->
  wp (invert_loop n g (hd NIL l)) (fun h =>
    h = set_eprev (set_enext g (enext h)) (eprev h) /\
    (forall x, enext h x = if inb x l then eprev g x else enext g x) /\
    (forall x, eprev h x = if inb x l then enext g x else eprev g x)).
Proof.
  induction l as [|e l IH]; intros n g p L Nd Hr Hn.
  - destruct n as [|n]; [cbn in Hn; lia|]. cbn [hd invert_loop]. change (NIL =? NIL) with true. cbv iota.
    cbn [wp]. split; [destruct g; reflexivity|]. split; intros; reflexivity.
  - destruct n as [|n]; [cbn in Hn; lia|]. cbn [hd invert_loop].
    destruct L as (Lp & Ln & L). apply NoDup_cons_iff in Nd. destruct Nd as [Ni Nd].
    pose proof (Hr e (or_introl eq_refl)) as Re.
    rewrite (eqb_false_neq e NIL) by (unfold NIL; lia).
    run. gsimp. run. gsimp. rewrite Ln.
    eapply wp_mono; [apply (IH n _ e)|].
    + gsimp. eapply linked_ext; [|exact L]. intros x Hx. cbn beta. rewrite !upd_other; auto; congruence.
    + exact Nd.
    + intros x Hx. apply Hr. now right.
    + cbn in Hn. lia.
    + intros h (E & En & Ep). cbn beta in *. gsimp_in E. gsimp_in En. gsimp_in Ep.
      split; [|split].
      * rewrite E. gsimp. reflexivity.
      * intros x. rewrite En. cbn [inb existsb]. fold (inb x l).
        destruct (Z.eqb_spec x e) as [->|Hx].
        -- destruct (inb_spec e l) as [H|_]; [contradiction|]. now rewrite upd_same.
        -- rewrite !upd_other by auto. reflexivity.
      * intros x. rewrite Ep. cbn [inb existsb]. fold (inb x l).
        destruct (Z.eqb_spec x e) as [->|Hx].
        -- destruct (inb_spec e l) as [H|_]; [contradiction|]. now rewrite upd_same.
        -- rewrite !upd_other by auto. reflexivity.
Qed.

Lemma adj_len_chains g adj v : chains g adj -> (length (adj v) < efuel g)%nat.
Proof.
  intros C. unfold efuel. apply Nat.lt_succ_r.
  destruct (adj v) as [|e0 l0] eqn:Ev; [cbn; lia|]. rewrite <- Ev.
  pose proof (ch_nodup _ _ C v) as N. pose proof (ch_range _ _ C v) as R.
  assert (I : incl (adj v) (zrange 0 (Z.to_nat (gp_EdgeIndexBound g)))).
  { intros x Hx. apply in_zrange. pose proof (R x Hx). lia. }
  pose proof (NoDup_incl_length N I) as H. rewrite zrange_length in H. lia.
Qed.

Lemma rd_ext0 g v : inV g v = true -> gp_GetExtFaceVertex g v 0 = Ret (ext0 (gX g) v).
Proof. intros H. unfold gp_GetExtFaceVertex. now rewrite guard_true. Qed.
Lemma rd_ext1 g v : inV g v = true -> gp_GetExtFaceVertex g v 1 = Ret (ext1 (gX g) v).
Proof. intros H. unfold gp_GetExtFaceVertex. now rewrite guard_true. Qed.
Lemma wr_ext0 g v x : inV g v = true -> gp_SetExtFaceVertex g v 0 x = Ret (set_gX g (set_ext0 (gX g) (upd (ext0 (gX g)) v x))).
Proof. intros H. unfold gp_SetExtFaceVertex. now rewrite guard_true. Qed.
Lemma wr_ext1 g v x : inV g v = true -> gp_SetExtFaceVertex g v 1 x = Ret (set_gX g (set_ext1 (gX g) (upd (ext1 (gX g)) v x))).
Proof. intros H. unfold gp_SetExtFaceVertex. now rewrite guard_true. Qed.
Ltac runx := repeat first [ run1 | rewrite rd_ext0 by bnd | rewrite rd_ext1 by bnd
                          | rewrite wr_ext0 by bnd | rewrite wr_ext1 by bnd ].

(** Complete description of the resulting state. *)
Lemma invert_state g adj W :
  chains g adj -> is_vertex g W ->
  wp (_InvertVertex g W) (fun h =>
    inverted g h adj W /\
    (forall x, enext h x = if inb x (adj W) then eprev g x else enext g x) /\
    (forall x, eprev h x = if inb x (adj W) then enext g x else eprev g x) /\
    (forall x, vfirst h x = if x =? W then vlast g W else vfirst g x) /\
    (forall x, vlast h x = if x =? W then vfirst g W else vlast g x)).
Proof.
  intros C Hv. unfold _InvertVertex. run. rewrite (ch_first _ _ C W Hv).
  apply wp_bind. eapply wp_mono.
  { apply (invert_loop_ok (adj W) _ g NIL (ch_linked _ _ C W Hv) (ch_nodup _ _ C W) (ch_range _ _ C W)).
    apply adj_len_chains. exact C. }
  intros h (E & En & Ep). cbn beta in *.
  assert (HN : gN h = gN g) by (rewrite E; reflexivity).
  assert (HV : is_vertex h W) by (unfold is_vertex in *; lia).
  runx. gsimp. runx. gsimp.
  set (h' := set_gX _ _).
  assert (Hn : enext h' = enext h) by reflexivity. assert (Hp : eprev h' = eprev h) by reflexivity.
  assert (Hf : forall x, vfirst h' x = if x =? W then vlast g W else vfirst g x).
  { intros x. unfold h'. gsimp. rewrite E. gsimp. reflexivity. }
  assert (Hl : forall x, vlast h' x = if x =? W then vfirst g W else vlast g x).
  { intros x. unfold h'. gsimp. rewrite E. gsimp. reflexivity. }
  split; [|split; [exact En|split; [exact Ep|split; [exact Hf|rewrite <- (ch_first _ _ C W Hv); exact Hl]]]].
  assert (NN : gN h' = gN g) by (rewrite <- HN; reflexivity).
  constructor.
  - constructor; unfold h'; gsimp; rewrite E; reflexivity.
  - constructor.
    + intros v Hv'. assert (Hvg : is_vertex g v) by (unfold is_vertex in *; lia). rewrite Hf. unfold upd.
      destruct (Z.eqb_spec v W) as [->|_]; [|apply C; auto].
      rewrite hd_rev_last. apply C; auto.
    + intros v Hv'. assert (Hvg : is_vertex g v) by (unfold is_vertex in *; lia). rewrite Hl. unfold upd.
      destruct (Z.eqb_spec v W) as [->|_]; [|apply C; auto].
      rewrite last_rev_hd. apply C; auto.
    + intros v Hv'. assert (Hvg : is_vertex g v) by (unfold is_vertex in *; lia). unfold upd.
      destruct (Z.eqb_spec v W) as [->|Hvw].
      * eapply linked_ext; [|apply linked_rev, (ch_linked _ _ C W Hv)].
        intros x Hx. apply in_rev in Hx. rewrite Hn, Hp, En, Ep. destruct (inb_spec x (adj W)); [auto|contradiction].
      * eapply linked_ext; [|apply (ch_linked _ _ C v Hvg)].
        intros x Hx. rewrite Hn, Hp, En, Ep. destruct (inb_spec x (adj W)) as [H|]; [|auto].
        exfalso. apply Hvw. exact (ch_disj _ _ C _ _ _ Hx H).
    + intros v Hv'. unfold upd. destruct (Z.eqb_spec v W) as [->|_].
      * exfalso. apply Hv'. unfold is_vertex in *. lia.
      * apply C. intros Q. apply Hv'. unfold is_vertex in *. lia.
    + intros v. unfold upd. destruct (Z.eqb_spec v W) as [->|_]; [apply NoDup_rev|]; apply C.
    + intros v w e H1 H2. unfold upd in *. apply (ch_disj _ _ C v w e).
      * destruct (Z.eqb_spec v W) as [->|_]; [now apply in_rev|auto].
      * destruct (Z.eqb_spec w W) as [->|_]; [now apply in_rev|auto].
    + intros v e H. assert (In e (adj v)).
      { unfold upd in H. destruct (Z.eqb_spec v W) as [->|_]; [now apply in_rev|auto]. }
      pose proof (ch_range _ _ C v e H0). unfold h', gp_EdgeIndexBound in *. gsimp. rewrite E. gsimp. lia.
  - unfold h'; gsimp; rewrite E; reflexivity.
  - unfold h'; gsimp; rewrite E; reflexivity.
  - unfold h'; gsimp; rewrite E; reflexivity.
  - unfold h'; gsimp; rewrite E; reflexivity.
  - intros x. unfold h'; gsimp; rewrite E; reflexivity.
  - intros x. unfold h'; gsimp; rewrite E; reflexivity.
Qed.

Lemma invert_ok g adj W :
  chains g adj -> is_vertex g W -> wp (_InvertVertex g W) (fun h => inverted g h adj W).
Proof. intros C Hv. eapply wp_mono; [apply invert_state; eauto|]. intros h H. apply H. Qed.

Lemma frame_core_refl g : frame_core g g.
Proof. constructor; reflexivity. Qed.
Lemma frame_core_trans a b c : frame_core a b -> frame_core b c -> frame_core a c.
Proof. intros [] []; constructor; congruence. Qed.
Lemma fc_vertex g h v : frame_core g h -> is_vertex h v <-> is_vertex g v.
Proof. intros F. unfold is_vertex. rewrite (fc_N _ _ F). tauto. Qed.
Lemma fc_bound g h : frame_core g h -> gp_EdgeInUseIndexBound h = gp_EdgeInUseIndexBound g.
Proof. intros F. unfold gp_EdgeInUseIndexBound. now rewrite (fc_M _ _ F), (fc_holes _ _ F). Qed.
Lemma fc_ebound g h : frame_core g h -> gp_EdgeIndexBound h = gp_EdgeIndexBound g.
Proof. intros F. unfold gp_EdgeIndexBound. now rewrite (fc_cap _ _ F). Qed.

Lemma inverted_twins g h adj W : inverted g h adj W -> twins_ok g adj -> twins_ok h (upd adj W (rev (adj W))).
Proof.
  intros I T v e H. rewrite (iv_enbr _ _ _ _ I).
  assert (Hin : forall v e, In e (upd adj W (rev (adj W)) v) <-> In e (adj v)).
  { intros v' e'. unfold upd. destruct (Z.eqb_spec v' W) as [->|_]; [now rewrite <- in_rev|tauto]. }
  rewrite Hin in *. exact (T v e H).
Qed.
Lemma inverted_storage g h adj W : inverted g h adj W -> storage_ok g adj -> storage_ok h (upd adj W (rev (adj W))).
Proof.
  intros I S. pose proof (iv_core _ _ _ _ I) as F.
  assert (Hin : forall v e, In e (upd adj W (rev (adj W)) v) <-> In e (adj v)).
  { intros v' e'. unfold upd. destruct (Z.eqb_spec v' W) as [->|_]; [now rewrite <- in_rev|tauto]. }
  constructor; rewrite ?(fc_N _ _ F), ?(fc_M _ _ F), ?(fc_cap _ _ F), ?(fc_holesCap _ _ F), ?(fc_holes _ _ F), ?(fc_bound _ _ F),
    ?(fc_ebound _ _ F), ?(iv_enbr _ _ _ _ I); try apply S.
  - intros v e H. rewrite Hin in H. apply (st_used _ _ S v e H).
  - intros e H. rewrite Hin. apply S. exact H.
Qed.
Lemma inverted_rep g h adj W : rep g adj -> inverted g h adj W -> rep h (upd adj W (rev (adj W))).
Proof.
  intros R I. constructor; [apply I|eapply inverted_twins; eauto; apply R|eapply inverted_storage; eauto; apply R].
Qed.

Lemma invert_twice g adj W :
  chains g adj -> is_vertex g W ->
  wp (h <- _InvertVertex g W ;; _InvertVertex h W) (same_state g).
Proof.
  intros C Hv. apply wp_bind. eapply wp_mono; [apply (invert_state g adj W C Hv)|].
  intros h (I & En & Ep & Ef & El). cbn beta. pose proof (iv_core _ _ _ _ I) as F.
  eapply wp_mono; [apply (invert_state h _ W (iv_lists _ _ _ _ I))|].
  { now apply (fc_vertex g h). }
  intros k (J & En' & Ep' & Ef' & El'). rewrite upd_same in *.
  assert (Hi : forall x, inb x (rev (adj W)) = inb x (adj W)).
  { intros x. destruct (inb_spec x (rev (adj W))) as [H|H], (inb_spec x (adj W)) as [H'|H']; auto;
    rewrite <- in_rev in H; contradiction. }
  constructor.
  - eapply frame_core_trans; [exact F|apply J].
  - intros x. rewrite Ef', El, Ef, Z.eqb_refl. destruct (Z.eqb_spec x W) as [->|]; auto.
  - intros x. rewrite El', Ef, El, Z.eqb_refl. destruct (Z.eqb_spec x W) as [->|]; auto.
  - intros x. now rewrite (iv_vindex _ _ _ _ J), (iv_vindex _ _ _ _ I).
  - intros x. now rewrite (iv_vflags _ _ _ _ J), (iv_vflags _ _ _ _ I).
  - intros x. rewrite En', Hi, En, Ep. destruct (inb x (adj W)); auto.
  - intros x. rewrite Ep', Hi, En, Ep. destruct (inb x (adj W)); auto.
  - intros x. now rewrite (iv_enbr _ _ _ _ J), (iv_enbr _ _ _ _ I).
  - intros x. now rewrite (iv_eflags _ _ _ _ J), (iv_eflags _ _ _ _ I).
  - intros x. rewrite (iv_ext0 _ _ _ _ J), (iv_ext1 _ _ _ _ I), (iv_ext0 _ _ _ _ I), Z.eqb_refl.
    destruct (Z.eqb_spec x W) as [->|]; auto.
  - intros x. rewrite (iv_ext1 _ _ _ _ J), (iv_ext1 _ _ _ _ I), (iv_ext0 _ _ _ _ I), Z.eqb_refl.
    destruct (Z.eqb_spec x W) as [->|]; auto.
Qed.
