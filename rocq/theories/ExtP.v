(** * ExtP: proofs about the extension system. *)
From Verif Require Import Base BaseP ExtM ExtSpec.

(** Slot [k]: [f] starts the chain of overloads of the extensions [es], which are the attached
    ones [L]. *)
Fixpoint chain (h : Z -> option ctx) (k : Z) (f : fp) (es : list ext) (L : list att) : Prop :=
  match es, L with
  | [], [] => f = FBase k
  | e :: es', a :: L' =>
    match h (ectx e) with
    | Some c => if is_null (aov a k) then ctab c k = FNull /\ chain h k f es' L'
                else f = aov a k /\ chain h k (ctab c k) es' L'
    | None => False
    end
  | _, _ => False
  end.

Lemma chain_nonnull h k es : forall f L, chain h k f es L -> is_null f = false.
Proof.
  induction es as [|e es IH]; intros f [|a L] H; cbn [chain] in H; try tauto.
  - now subst f.
  - destruct (h (ectx e)) as [c|]; [|tauto]. destruct (is_null (aov a k)) eqn:En.
    + destruct H as [_ H]. eauto.
    + destruct H as [-> _]. exact En.
Qed.

Lemma chain_length h k es : forall f L, chain h k f es L -> length es = length L.
Proof.
  induction es as [|e es IH]; intros f [|a L] H; cbn [chain] in H; try tauto; try reflexivity.
  destruct (h (ectx e)) as [c|]; [|tauto]. simpl. f_equal.
  destruct (is_null (aov a k)); destruct H as [_ H]; eauto.
Qed.

Lemma chain_frame h h' k es : forall f L,
  chain h k f es L ->
  (forall e c, In e es -> h (ectx e) = Some c -> exists c', h' (ectx e) = Some c' /\ ctab c' k = ctab c k) ->
  chain h' k f es L.
Proof.
  induction es as [|e es IH]; intros f [|a L] H HF; cbn [chain] in *; try tauto.
  destruct (h (ectx e)) as [c|] eqn:Ec; [|tauto].
  destruct (HF e c (or_introl eq_refl) Ec) as (c' & -> & Et). rewrite Et.
  destruct (is_null (aov a k)); destruct H as [H1 H2]; (split; [exact H1|]);
    (apply IH; [exact H2|]; intros e0 c0 Hin; apply HF; now right).
Qed.

Lemma rd_tab_some s a k c : xheap s a = Some c -> rd_tab s a k = Ret (ctab c k).
Proof. intros E. unfold rd_tab. now rewrite E. Qed.

(** What the repair of one slot does. *)
Lemma fix_chain s k e es2 x L2 c : forall es1 L1 f found,
  chain (xheap s) k f (es1 ++ e :: es2) (L1 ++ x :: L2) ->
  length es1 = length L1 ->
  is_null (aov x k) = false -> xheap s (ectx e) = Some c ->
  NoDup (map ectx (es1 ++ e :: es2)) -> NoDup (map eptr (es1 ++ e :: es2)) ->
  (forall d, In d es1 -> etab d = ectx d) ->
  exists r, nearest s (es1 ++ e :: es2) (eptr e) k found = Ret r /\
    ((r = found /\ chain (xheap s) k (ctab c k) (es1 ++ es2) (L1 ++ L2)) \/
     (exists e' c', In e' es1 /\ r = Some (ectx e') /\ xheap s (ectx e') = Some c' /\
        chain (upd (xheap s) (ectx e') (Some (mkCtx (upd (ctab c') k (ctab c k)) (cdata c'))))
              k f (es1 ++ es2) (L1 ++ L2))).
Proof.
  induction es1 as [|e1 es1 IH]; intros L1 f found Hc Hl Hx He Hn Hp Ht;
    (destruct L1 as [|a1 L1]; [|try discriminate]); try discriminate.
  - cbn [app nearest] in *. rewrite Z.eqb_refl. exists found. split; [reflexivity|]. left.
    split; [reflexivity|]. cbn [chain] in Hc. rewrite He, Hx in Hc. tauto.
  - cbn [app] in *. cbn [nearest].
    cbn [map] in Hn, Hp. apply NoDup_cons_iff in Hn. destruct Hn as [Hn1 Hn2].
    apply NoDup_cons_iff in Hp. destruct Hp as [Hp1 Hp2].
    destruct (Z.eqb_spec (eptr e1) (eptr e)) as [E|_].
    { exfalso. apply Hp1. rewrite E. apply in_map, in_or_app. right; now left. }
    cbn [chain] in Hc. destruct (xheap s (ectx e1)) as [c1|] eqn:Ec1; [|tauto].
    rewrite (Ht e1 (or_introl eq_refl)). rewrite (rd_tab_some _ _ _ _ Ec1). cbn [bind].
    assert (Ht' : forall d, In d es1 -> etab d = ectx d) by (intros; apply Ht; now right).
    injection Hl as Hl.
    assert (Hne : forall d, In d (es1 ++ es2) -> ectx d <> ectx e1).
    { intros d Hd E. apply Hn1. rewrite <- E. apply in_map, in_app_iff. apply in_app_iff in Hd.
      destruct Hd; [now left|right; now right]. }
    destruct (is_null (aov a1 k)) eqn:En.
    + destruct Hc as [Hnull Hc]. rewrite Hnull. cbn [is_null].
      destruct (IH L1 f found Hc Hl Hx He Hn2 Hp2 Ht') as (r & Er & [[Hr H]|(e' & c' & Hin & Hr & Hc' & H)]).
      * exists r. split; [exact Er|]. left. split; [exact Hr|]. cbn [chain]. rewrite Ec1, En. auto.
      * exists r. split; [exact Er|]. right. exists e', c'. split; [now right|]. split; [exact Hr|].
        split; [exact Hc'|]. cbn [chain]. rewrite upd_other; [rewrite Ec1, En; auto|].
        intros E. apply (Hne e'); [apply in_or_app; now left|]. congruence.
    + destruct Hc as [Hf Hc].
      pose proof (chain_nonnull _ _ _ _ _ Hc) as Hnn. rewrite Hnn.
      destruct (IH L1 (ctab c1 k) (Some (ectx e1)) Hc Hl Hx He Hn2 Hp2 Ht')
        as (r & Er & [[Hr H]|(e' & c' & Hin & Hr & Hc' & H)]).
      * exists r. split; [exact Er|]. right. exists e1, c1. split; [now left|]. split; [exact Hr|].
        split; [exact Ec1|]. cbn [chain]. rewrite upd_same, En. cbn [ctab]. rewrite upd_same.
        split; [exact Hf|]. apply (chain_frame (xheap s)); [exact H|].
        intros d c0 Hd Ed. exists c0. rewrite upd_other by (now apply Hne). auto.
      * exists r. split; [exact Er|]. right. exists e', c'. split; [now right|]. split; [exact Hr|].
        split; [exact Hc'|]. cbn [chain]. rewrite upd_other; [rewrite Ec1, En; auto|].
        intros E. apply (Hne e'); [apply in_or_app; now left|]. congruence.
Qed.

Lemma chain_drop_null h k e es2 x L2 : forall es1 L1 f,
  chain h k f (es1 ++ e :: es2) (L1 ++ x :: L2) -> length es1 = length L1 ->
  is_null (aov x k) = true -> chain h k f (es1 ++ es2) (L1 ++ L2).
Proof.
  induction es1 as [|e1 es1 IH]; intros L1 f Hc Hl Hx;
    (destruct L1 as [|a1 L1]; [|try discriminate]); try discriminate; cbn [app chain] in *.
  - destruct (h (ectx e)); [|tauto]. rewrite Hx in Hc. tauto.
  - destruct (h (ectx e1)); [|tauto]. injection Hl as Hl.
    destruct (is_null (aov a1 k)); destruct Hc as [H1 H2]; auto.
Qed.

Lemma chain_tab_null h k e es2 x L2 : forall es1 L1 f c,
  chain h k f (es1 ++ e :: es2) (L1 ++ x :: L2) -> length es1 = length L1 ->
  h (ectx e) = Some c -> is_null (ctab c k) = is_null (aov x k).
Proof.
  induction es1 as [|e1 es1 IH]; intros L1 f c Hc Hl He;
    (destruct L1 as [|a1 L1]; [|try discriminate]); try discriminate; cbn [app chain] in *.
  - rewrite He in Hc. destruct (is_null (aov x k)).
    + destruct Hc as [-> _]. reflexivity.
    + destruct Hc as [_ Hc]. eapply chain_nonnull; eauto.
  - destruct (h (ectx e1)); [|tauto]. injection Hl as Hl.
    destruct (is_null (aov a1 k)); destruct Hc as [H1 H2]; eauto.
Qed.

(** ** The invariant of histories *)
Definition lnk (s : sys) (e : ext) (a : att) : Prop :=
  eid e = xmid s (am a) /\ xmid s (am a) <> 0 /\ etab e = ectx e /\
  exists c, xheap s (ectx e) = Some c /\ cdata c = ad a.

Definition good_ov (a : att) : Prop :=
  forall k, 0 <= k < NUMF -> aov a k = FNull \/ exists v, aov a k = FOv (am a) k v.

Record xinv (s : sys) (A : attached) (kn : Z -> bool) : Prop := mkXinv {
  xi_lnk : forall gi, Forall2 (lnk s) (eexts (xg s gi)) (A gi);
  xi_mods : forall gi, NoDup (map am (A gi));
  xi_ov : forall gi, Forall good_ov (A gi);
  xi_chain : forall gi k, 0 <= k < NUMF -> chain (xheap s) k (efn (xg s gi) k) (eexts (xg s gi)) (A gi);
  xi_ctx : forall gi, NoDup (map ectx (eexts (xg s gi)));
  xi_ptr : forall gi, NoDup (map eptr (eexts (xg s gi)));
  xi_sep : forall gi gj e e', In e (eexts (xg s gi)) -> In e' (eexts (xg s gj)) -> ectx e = ectx e' -> gi = gj;
  xi_next : forall gi e, In e (eexts (xg s gi)) -> ectx e < xnext s /\ eptr e < xnext s;
  xi_mid : forall m, 0 <= xmid s m <= xgen s;
  xi_inj : forall m m', xmid s m = xmid s m' -> xmid s m <> 0 -> m = m';
  xi_kn : forall m, kn m = true <-> xmid s m <> 0
}.

Lemma xinv_init : xinv xinit none_attached (fun _ => false).
Proof.
  split; cbn; unfold none_attached; try (intros; solve [constructor | lia | contradiction | discriminate | reflexivity]).
Qed.

Lemma Forall2_in_l {A B} (R : A -> B -> Prop) l1 l2 x :
  Forall2 R l1 l2 -> In x l1 -> exists y, In y l2 /\ R x y.
Proof.
  induction 1 as [|a b l1 l2 Hab H IH]; simpl; [tauto|]. intros [->|Hin].
  - exists b. auto.
  - destruct (IH Hin) as (y & Hy & Hr). exists y. auto.
Qed.
Lemma Forall2_in_r {A B} (R : A -> B -> Prop) l1 l2 y :
  Forall2 R l1 l2 -> In y l2 -> exists x, In x l1 /\ R x y.
Proof.
  induction 1 as [|a b l1 l2 Hab H IH]; simpl; [tauto|]. intros [->|Hin].
  - exists a. auto.
  - destruct (IH Hin) as (x & Hx & Hr). exists x. auto.
Qed.

Lemma has_false L m : has L m = false <-> ~ In m (map am L).
Proof.
  unfold has. induction L as [|a L IH]; simpl; [tauto|].
  destruct (Z.eqb_spec (am a) m) as [->|Hn]; simpl; [intuition discriminate|]. rewrite IH. intuition.
Qed.
Lemma has_true L m : has L m = true <-> exists L1 a L2, L = L1 ++ a :: L2 /\ am a = m.
Proof.
  split.
  - intros H. apply existsb_exists in H. destruct H as (a & Hin & E).
    apply Z.eqb_eq in E. apply in_split in Hin. destruct Hin as (L1 & L2 & ->). exists L1, a, L2. auto.
  - intros (L1 & a & L2 & -> & <-). unfold has. rewrite existsb_app. simpl. rewrite Z.eqb_refl.
    now rewrite orb_true_r.
Qed.

(** Looking a module up. *)
Lemma find_ok s A kn gi m : xinv s A kn ->
  match gp_FindExtension s gi (xmid s m) with
  | Some a => exists L1 x L2 c, A gi = L1 ++ x :: L2 /\ am x = m /\ xheap s a = Some c /\ cdata c = ad x
  | None => has (A gi) m = false
  end.
Proof.
  intros H. unfold gp_FindExtension.
  pose proof (xi_lnk _ _ _ H gi) as HF. revert HF.
  generalize (eexts (xg s gi)) (A gi). intros es L HF.
  destruct (Z.eqb_spec (xmid s m) 0) as [E0|E0].
  - apply has_false. intros Hin. apply in_map_iff in Hin. destruct Hin as (a & <- & Hin).
    destruct (Forall2_in_r _ _ _ _ HF Hin) as (e & _ & _ & Hne & _). congruence.
  - induction HF as [|e a es L Hea HF IH]; cbn [find_ext]; [reflexivity|].
    destruct Hea as (H1 & H2 & H3 & c & Hc & Hd). rewrite H1.
    destruct (Z.eqb_spec (xmid s (am a)) (xmid s m)) as [E|E].
    + exists [], a, L, c. split; [reflexivity|]. split; [eapply (xi_inj _ _ _ H); eauto|]. auto.
    + destruct (find_ext es (xmid s m)) as [z|].
      * destruct IH as (L1 & x & L2 & c' & -> & ? & ? & ?). exists (a :: L1), x, L2, c'. auto.
      * unfold has in *. simpl. rewrite IH. destruct (Z.eqb_spec (am a) m); [subst; congruence|reflexivity].
Qed.

Lemma find_in s A kn gi e a es1 es2 L1 L2 : xinv s A kn ->
  eexts (xg s gi) = es1 ++ e :: es2 -> A gi = L1 ++ a :: L2 -> length es1 = length L1 ->
  gp_FindExtension s gi (xmid s (am a)) = Some (ectx e).
Proof.
  intros H Ee EL Hl. unfold gp_FindExtension.
  pose proof (xi_lnk _ _ _ H gi) as HF. pose proof (xi_mods _ _ _ H gi) as HM.
  rewrite Ee, EL in *. clear Ee EL.
  revert L1 Hl HF HM. induction es1 as [|e1 es1 IH]; intros L1 Hl HF HM;
    (destruct L1 as [|a1 L1]; [|try discriminate]); try discriminate; cbn [app] in *.
  - inversion_clear HF as [|? ? ? ? Hea HF']. destruct Hea as (H1 & H2 & _).
    destruct (Z.eqb_spec (xmid s (am a)) 0); [congruence|]. cbn [find_ext]. rewrite H1, Z.eqb_refl. reflexivity.
  - inversion_clear HF as [|? ? ? ? Hea HF']. destruct Hea as (H1 & H2 & _).
    injection Hl as Hl. cbn [map] in HM. apply NoDup_cons_iff in HM. destruct HM as [HM1 HM2].
    specialize (IH L1 Hl HF' HM2). destruct (Z.eqb_spec (xmid s (am a)) 0); [discriminate|].
    cbn [find_ext]. rewrite H1. destruct (Z.eqb_spec (xmid s (am a1)) (xmid s (am a))) as [E|_]; [|exact IH].
    exfalso. apply HM1. apply (xi_inj _ _ _ H) in E; [|auto]. rewrite E.
    apply in_map, in_or_app; right; now left.
Qed.

(** Virtual calls. *)
Lemma vcall_ok s A kn gi k : xinv s A kn -> 0 <= k < NUMF ->
  forall es2 L2 es1 L1 f fuel,
  eexts (xg s gi) = es1 ++ es2 -> A gi = L1 ++ L2 -> length es1 = length L1 ->
  chain (xheap s) k f es2 L2 -> (length es2 < fuel)%nat ->
  vcall fuel s gi k f = Ret (dispatch L2 k).
Proof.
  intros H Hk. induction es2 as [|e es2 IH]; intros L2 es1 L1 f fuel Ee EL Hl Hc Hf;
    destruct L2 as [|a L2]; cbn [chain] in Hc; try tauto.
  - subst f. destruct fuel; [simpl in Hf; lia|]. reflexivity.
  - destruct (xheap s (ectx e)) as [c|] eqn:Ec; [|tauto].
    assert (Hov : aov a k = FNull \/ exists v, aov a k = FOv (am a) k v).
    { pose proof (xi_ov _ _ _ H gi) as HO. rewrite EL in HO. apply Forall_app in HO. destruct HO as [_ HO].
      inversion_clear HO as [|? ? HO1 _]. now apply HO1. }
    assert (Ee' : eexts (xg s gi) = (es1 ++ [e]) ++ es2) by (rewrite Ee, <- app_assoc; reflexivity).
    assert (EL' : A gi = (L1 ++ [a]) ++ L2) by (rewrite EL, <- app_assoc; reflexivity).
    assert (Hl' : length (es1 ++ [e]) = length (L1 ++ [a])) by (rewrite !app_length; simpl; lia).
    destruct Hov as [En|(v & En)].
    + rewrite En in Hc. cbn [is_null] in Hc. destruct Hc as [_ Hc].
      unfold dispatch. cbn [map]. rewrite En. cbn [filter is_null negb].
      apply (IH L2 _ _ f fuel Ee' EL' Hl' Hc). simpl in Hf. lia.
    + rewrite En in Hc. cbn [is_null] in Hc. destruct Hc as [-> Hc].
      destruct fuel as [|fuel]; [simpl in Hf; lia|]. cbn [vcall].
      rewrite (find_in s A kn gi e a es1 es2 L1 L2 H Ee EL Hl).
      rewrite (rd_tab_some _ _ _ _ Ec). cbn [bind].
      rewrite (IH L2 _ _ _ fuel Ee' EL' Hl' Hc) by (simpl in Hf; lia). cbn [bind].
      unfold dispatch. cbn [map]. rewrite En. reflexivity.
Qed.

Lemma invoke_ok s A kn gi k : xinv s A kn -> 0 <= k < NUMF -> invoke s gi k = Ret (dispatch (A gi) k).
Proof.
  intros H Hk. unfold invoke.
  apply (vcall_ok s A kn gi k H Hk (eexts (xg s gi)) (A gi) [] []); auto.
  apply (xi_chain _ _ _ H gi k Hk).
Qed.

(** ** Attaching *)
Definition ovl_state (s : sys) (gi a : Z) (K : Z) (s' : sys) : Prop :=
  xnext s' = xnext s /\ xgen s' = xgen s /\ xmid s' = xmid s /\
  (forall gj, gj <> gi -> xg s' gj = xg s gj) /\ eexts (xg s' gi) = eexts (xg s gi) /\
  (forall b, b <> a -> xheap s' b = xheap s b) /\
  exists c c', xheap s a = Some c /\ xheap s' a = Some c' /\ cdata c' = cdata c /\
    forall k, (0 <= k < K ->
                 (is_null (ctab c k) = true -> ctab c' k = FNull /\ efn (xg s' gi) k = efn (xg s gi) k) /\
                 (is_null (ctab c k) = false -> ctab c' k = efn (xg s gi) k /\ efn (xg s' gi) k = ctab c k)) /\
              (~ (0 <= k < K) -> ctab c' k = ctab c k /\ efn (xg s' gi) k = efn (xg s gi) k).

Lemma is_null_eq f : is_null f = true -> f = FNull.
Proof. destruct f; simpl; congruence. Qed.

Lemma overload_ok s gi a c : xheap s a = Some c ->
  exists s', _OverloadFunctions s gi a = Ret s' /\ ovl_state s gi a NUMF s'.
Proof.
  intros Ea. unfold _OverloadFunctions. apply wp_inv.
  replace NUMF with (0 + Z.of_nat (Z.to_nat NUMF)) at 2 by reflexivity.
  apply for_up_inv.
  - do 6 (split; [auto|]). exists c, c. do 3 (split; [auto|]). intros k. split; [lia|auto].
  - intros K s1 HK (E1 & E2 & E3 & E4 & E5 & E6 & c0 & c' & F1 & F2 & F3 & F4).
    assert (c0 = c) by congruence. subst c0.
    rewrite (rd_tab_some _ _ _ _ F2). cbn [bind].
    destruct (F4 K) as [_ F5]. destruct F5 as [F5 F6]; [lia|].
    destruct (is_null (ctab c' K)) eqn:En.
    + apply wp_ret. unfold ovl_state. do 6 (split; [auto|]). exists c, c'. do 3 (split; [auto|]).
      intros k. split.
      * intros Hk. destruct (Z.eq_dec k K) as [->|Hne].
        -- rewrite F5 in *. split; [intros _|congruence]. split; [now apply is_null_eq|auto].
        -- apply F4. lia.
      * intros Hk. apply F4. lia.
    + unfold wr_tab, wr_fn, set_graph. cbn [xheap]. rewrite F2. apply wp_ret.
      unfold ovl_state, set_heap, rd_fn. cbn [xnext xgen xmid xg xheap].
      do 3 (split; [auto|]). split.
      { intros gj Hj. rewrite upd_other by auto. auto. }
      rewrite upd_same. cbn [eexts efn]. split; [auto|]. split.
      { intros b Hb. rewrite upd_other by auto. auto. }
      eexists c, _. split; [auto|]. rewrite upd_same. split; [reflexivity|]. cbn [cdata ctab].
      split; [auto|]. intros k. split.
      * intros Hk. destruct (Z.eq_dec k K) as [->|Hne].
        -- rewrite !upd_same. rewrite <- F5, En. split; [discriminate|]. intros _. rewrite F6. auto.
        -- rewrite !upd_other by auto. apply F4. lia.
      * intros Hk. rewrite !upd_other by lia. apply F4. lia.
Qed.

Lemma Forall2_impl2 {A B} (R R' : A -> B -> Prop) l1 l2 :
  (forall a b, In a l1 -> R a b -> R' a b) -> Forall2 R l1 l2 -> Forall2 R' l1 l2.
Proof.
  intros HI HF. induction HF as [|a b l1 l2 Hab HF IH]; constructor.
  - apply HI; [now left|auto].
  - apply IH. intros; apply HI; [now right|auto].
Qed.

Lemma attach_ok s A kn gi m ov d : xinv s A kn -> good_ov (mkAtt m ov d) ->
  exists s', attach s gi m ov d = Ret (xanswer A kn (XAttach gi m ov d), s') /\
    xinv s' (xspec A (XAttach gi m ov d)) (xknown kn (XAttach gi m ov d)).
Proof.
  intros H Hov. unfold attach. set (a := xnext s). cbn [xanswer xspec xknown].
  set (s1 := mkSys (upd (xheap s) a (Some (mkCtx ov d))) (a + 1) (xgen s) (xmid s) (xg s)).
  assert (Hfresh : forall gj e, In e (eexts (xg s gj)) -> ectx e <> a /\ eptr e <> a).
  { intros gj e He. pose proof (xi_next _ _ _ H gj e He). unfold a. lia. }
  pose proof (find_ok s A kn gi m H) as HFind.
  unfold gp_AddExtension.
  change (gp_FindExtension s1 gi (xmid s1 m)) with (gp_FindExtension s gi (xmid s m)).
  destruct (gp_FindExtension s gi (xmid s m)) as [z|] eqn:Ef.
  - (* already attached *)
    destruct HFind as (L1 & x & L2 & c & EL & Ex & _).
    assert (Hhas : has (A gi) m = true) by (apply has_true; exists L1, x, L2; auto).
    rewrite Hhas. cbn [bind]. change (C_NOTOK =? C_OK) with false. cbv iota. eexists. split; [reflexivity|].
    unfold set_heap, s1. cbn [xheap xnext xgen xmid xg].
    assert (Hk : xmid s m <> 0).
    { pose proof (xi_lnk _ _ _ H gi) as HF. rewrite EL in HF.
      destruct (Forall2_in_r _ _ _ x HF) as (e & _ & _ & Hne & _); [apply in_or_app; right; now left|].
      now rewrite Ex in Hne. }
    assert (Hheap : forall e gj, In e (eexts (xg s gj)) ->
      upd (upd (xheap s) a (Some (mkCtx ov d))) a None (ectx e) = xheap s (ectx e)).
    { intros e gj He. destruct (Hfresh gj e He). now rewrite !upd_other by auto. }
    destruct H as [I1 I2 I3 I4 I5 I6 I7 I8 I9 I10 I11].
    split; cbn [xheap xnext xgen xmid xg]; auto.
    + intros gj. apply (Forall2_impl2 (lnk s)); [|apply I1]. intros e a0 He (J1 & J2 & J3 & J4).
      unfold lnk. cbn [xheap xmid]. rewrite (Hheap e gj He). auto.
    + intros gj k Hk'. apply (chain_frame (xheap s)); [auto|]. intros e c0 He Ec. exists c0.
      rewrite (Hheap e gj He). auto.
    + intros gj e He. destruct (I8 gj e He). unfold a. lia.
    + intros m0. rewrite <- I11. rewrite upd_if. destruct (Z.eqb_spec m0 m) as [->|]; [|tauto].
      rewrite I11. tauto.
  - (* new *)
    rewrite HFind. set (s2 := if xmid s1 m =? 0 then _ else s1).
    assert (E2 : xheap s2 = xheap s1 /\ xnext s2 = a + 1 /\ xg s2 = xg s) by
      (unfold s2; destruct (xmid s1 m =? 0); auto).
    destruct E2 as (E2h & E2n & E2g).
    assert (Emid : xmid s2 m <> 0 /\ (forall m', m' <> m -> xmid s2 m' = xmid s m') /\
                   (xmid s m <> 0 -> xmid s2 m = xmid s m) /\ (xmid s m = 0 -> xmid s2 m = xgen s + 1) /\
                   xgen s <= xgen s2 /\ 0 <= xmid s2 m <= xgen s2).
    { pose proof (xi_mid _ _ _ H m) as Hmid. pose proof (xi_mid _ _ _ H 0) as Hmid0.
      unfold s2. cbn [xmid s1]. destruct (Z.eqb_spec (xmid s m) 0) as [E|E].
      - cbn [xmid xgen s1]. rewrite upd_same. split; [lia|]. split; [intros; now apply upd_other|].
        split; [congruence|]. split; [auto|]. lia.
      - cbn [xmid xgen s1]. split; [auto|]. split; [auto|]. split; [auto|]. split; [congruence|]. lia. }
    destruct Emid as (Em1 & Em2 & Em3 & Em4 & Em5 & Em6).
    clearbody s2. cbn zeta.
    set (s3 := mkSys (xheap s2) (xnext s2 + 1) (xgen s2) (xmid s2) (xg s2)).
    destruct (overload_ok s3 gi a (mkCtx ov d)) as (s4 & E4 & (O1 & O2 & O3 & O4 & O5 & O6 & c & c' & P1 & P2 & P3 & P4)).
    { unfold s3. cbn [xheap]. rewrite E2h. apply upd_same. }
    rewrite E4. cbn [bind]. change (C_OK =? C_OK) with true. cbv iota. eexists. split; [reflexivity|].
    assert (Ec : c = mkCtx ov d).
    { unfold s3 in P1. cbn [xheap] in P1. rewrite E2h in P1. unfold s1 in P1. cbn [xheap] in P1.
      rewrite upd_same in P1. congruence. }
    subst c. cbn [ctab cdata] in *. unfold s3 in *. cbn [xheap xnext xgen xmid xg] in *.
    rewrite E2g, E2h, E2n in *. clear E2g E2h E2n.
    assert (Hheap : forall e gj, In e (eexts (xg s gj)) -> xheap s4 (ectx e) = xheap s (ectx e)).
    { intros e gj He. destruct (Hfresh gj e He). rewrite O6 by auto. unfold s1. cbn [xheap]. now rewrite upd_other. }
    assert (Hmid : forall a0 gj, In a0 (A gj) -> xmid s2 (am a0) = xmid s (am a0) /\ xmid s (am a0) <> 0).
    { intros a0 gj Ha. destruct (Forall2_in_r _ _ _ a0 (xi_lnk _ _ _ H gj) Ha) as (e & _ & _ & Hne & _).
      split; [|auto]. destruct (Z.eq_dec (am a0) m) as [E|]; [rewrite E in *; auto|auto]. }
    destruct H as [I1 I2 I3 I4 I5 I6 I7 I8 I9 I10 I11].
    set (e0 := mkExt (a + 1) (xmid s2 m) a a).
    set (A' := upd A gi (mkAtt m ov d :: A gi)).
    assert (Hex : forall gj, eexts (upd (xg s4) gi (mkEg (efn (xg s4 gi)) (e0 :: eexts (xg s4 gi))) gj)
                  = if gj =? gi then e0 :: eexts (xg s gi) else eexts (xg s gj)).
    { intros gj. rewrite upd_if. destruct (Z.eqb_spec gj gi) as [->|Hj]; cbn [eexts]; [now rewrite O5|].
      now rewrite O4. }
    assert (HA : forall gj, A' gj = if gj =? gi then mkAtt m ov d :: A gi else A gj).
    { intros gj. unfold A'. apply upd_if. }
    assert (Hlnk : forall gj, Forall2 (fun e b => eid e = xmid s2 (am b) /\ xmid s2 (am b) <> 0 /\ etab e = ectx e /\
                      exists c, xheap s4 (ectx e) = Some c /\ cdata c = ad b) (eexts (xg s gj)) (A gj)).
    { intros gj. pose proof (I1 gj) as HF. revert HF.
      generalize (fun a0 => Hmid a0 gj) (fun e => Hheap e gj). generalize (eexts (xg s gj)) (A gj).
      intros es L Hm Hh HF. induction HF as [|e b es L (J1 & J2 & J3 & c0 & J4 & J5) HF IH]; constructor.
      - destruct (Hm b (or_introl eq_refl)) as [-> _]. rewrite (Hh e (or_introl eq_refl)). eauto 10.
      - apply IH; [intros a0 Ha0; apply Hm; now right|intros e1 He1; apply Hh; now right]. }
    split; cbn [xheap xnext xgen xmid xg set_graph].
    + intros gj. rewrite Hex, HA. unfold lnk. cbn [xmid xheap set_graph]. rewrite O3.
      destruct (Z.eqb_spec gj gi) as [->|Hj]; [|apply Hlnk].
      constructor; [|apply Hlnk]. cbn [eid ectx etab am ad e0]. split; [auto|]. split; [auto|]. split; [auto|].
      exists c'. auto.
    + intros gj. rewrite HA. destruct (Z.eqb_spec gj gi) as [->|Hj]; [|auto]. cbn [map am].
      constructor; [now apply has_false|auto].
    + intros gj. rewrite HA. destruct (Z.eqb_spec gj gi) as [->|Hj]; [|auto]. constructor; auto.
    + intros gj k Hk. rewrite Hex, HA. rewrite upd_if. destruct (Z.eqb_spec gj gi) as [->|Hj].
      * cbn [chain ectx e0 efn aov]. rewrite P2. destruct (P4 k) as [P5 _]. destruct (P5 Hk) as [P6 P7].
        assert (Hold : chain (xheap s4) k (efn (xg s gi) k) (eexts (xg s gi)) (A gi)).
        { apply (chain_frame (xheap s)); [auto|]. intros e c0 He Ec. exists c0. now rewrite (Hheap e gi He). }
        destruct (is_null (ov k)) eqn:En.
        -- destruct P6 as [-> ->]; auto.
        -- destruct P7 as [-> ->]; auto.
      * rewrite O4 by auto. apply (chain_frame (xheap s)); [auto|].
        intros e c0 He Ec. exists c0. now rewrite (Hheap e gj He).
    + intros gj. rewrite Hex. destruct (Z.eqb_spec gj gi) as [->|Hj]; [|auto]. cbn [map ectx e0].
      constructor; [|auto]. intros Hin. apply in_map_iff in Hin. destruct Hin as (e & E & He).
      destruct (Hfresh gi e He). congruence.
    + intros gj. rewrite Hex. destruct (Z.eqb_spec gj gi) as [->|Hj]; [|auto]. cbn [map eptr e0].
      constructor; [|auto]. intros Hin. apply in_map_iff in Hin. destruct Hin as (e & E & He).
      pose proof (I8 gi e He). unfold a in E. lia.
    + intros gj gl e e'. rewrite !Hex.
      destruct (Z.eqb_spec gj gi) as [->|Hj], (Z.eqb_spec gl gi) as [->|Hl']; auto.
      * intros [<-|He] He' E; [|eapply I7; eauto]. cbn [ectx e0] in E. destruct (Hfresh gl e' He'). congruence.
      * intros He [<-|He'] E; [|eapply I7; eauto]. cbn [ectx e0] in E. destruct (Hfresh gj e He). congruence.
      * intros He He' E. eapply I7; eauto.
    + intros gj e. rewrite Hex, O1. destruct (Z.eqb_spec gj gi) as [->|Hj].
      * intros [<-|He]; [cbn [ectx eptr e0]; lia|]. pose proof (I8 gi e He). unfold a. lia.
      * intros He. pose proof (I8 gj e He). unfold a. lia.
    + intros m0. rewrite O2, O3. destruct (Z.eq_dec m0 m) as [->|Hm]; [auto|]. rewrite Em2 by auto.
      pose proof (I9 m0). lia.
    + intros m0 m1. rewrite O3. destruct (Z.eq_dec m0 m) as [->|Hm0], (Z.eq_dec m1 m) as [->|Hm1]; auto;
        rewrite ?(Em2 m0), ?(Em2 m1) by auto.
      * destruct (Z.eq_dec (xmid s m) 0) as [E|E].
        -- rewrite (Em4 E). intros E' _. pose proof (I9 m1). lia.
        -- rewrite (Em3 E). apply I10.
      * destruct (Z.eq_dec (xmid s m) 0) as [E|E].
        -- rewrite (Em4 E). intros E' _. pose proof (I9 m0). lia.
        -- rewrite (Em3 E). apply I10.
      * apply I10.
    + intros m0. rewrite O3, upd_if. destruct (Z.eqb_spec m0 m) as [->|Hm]; [tauto|].
      rewrite Em2 by auto. apply I11.
Qed.

(** ** Detaching *)
Lemma unhook_split l id : match unhook l id with
  | Some (e, r) => exists l1 l2, l = l1 ++ e :: l2 /\ r = l1 ++ l2 /\ eid e = id /\ (forall d, In d l1 -> eid d <> id)
  | None => forall d, In d l -> eid d <> id
  end.
Proof.
  induction l as [|e l IH]; cbn [unhook]; [simpl; tauto|].
  destruct (Z.eqb_spec (eid e) id) as [E|E].
  - exists [], l. simpl. split; [auto|]. split; [auto|]. split; [auto|tauto].
  - destruct (unhook l id) as [[x r]|].
    + destruct IH as (l1 & l2 & -> & -> & E1 & E2). exists (e :: l1), l2. split; [auto|]. split; [auto|].
      split; [auto|]. intros d [<-|Hd]; auto.
    + intros d [<-|Hd]; auto.
Qed.

Definition fix_state (s : sys) (gi : Z) (e : ext) (es1 es2 : list ext) (x : att) (L1 L2 : list att) (K : Z) (s' : sys) : Prop :=
  xnext s' = xnext s /\ xgen s' = xgen s /\ xmid s' = xmid s /\
  (forall gj, gj <> gi -> xg s' gj = xg s gj) /\ eexts (xg s' gi) = eexts (xg s gi) /\
  (forall b, ~ In b (map ectx es1) -> xheap s' b = xheap s b) /\
  (forall b c, xheap s b = Some c -> exists c', xheap s' b = Some c' /\ cdata c' = cdata c) /\
  (forall k, 0 <= k < K -> chain (xheap s') k (efn (xg s' gi) k) (es1 ++ es2) (L1 ++ L2)) /\
  (forall k, K <= k < NUMF -> chain (xheap s') k (efn (xg s' gi) k) (es1 ++ e :: es2) (L1 ++ x :: L2)).

Lemma fixup_ok s A kn gi e es1 es2 x L1 L2 : xinv s A kn ->
  eexts (xg s gi) = es1 ++ e :: es2 -> A gi = L1 ++ x :: L2 -> length es1 = length L1 ->
  exists s', _FixupFunctionTables s gi e = Ret s' /\ fix_state s gi e es1 es2 x L1 L2 NUMF s'.
Proof.
  intros H Ee EL Hl. unfold _FixupFunctionTables. apply wp_inv.
  replace NUMF with (0 + Z.of_nat (Z.to_nat NUMF)) at 2 by reflexivity.
  pose proof (xi_ctx _ _ _ H gi) as Hn. pose proof (xi_ptr _ _ _ H gi) as Hp.
  pose proof (xi_lnk _ _ _ H gi) as HF. rewrite Ee in Hn, Hp, HF. rewrite EL in HF.
  assert (Ht : forall d, In d (es1 ++ e :: es2) -> etab d = ectx d /\ exists c, xheap s (ectx d) = Some c).
  { intros d Hd. destruct (Forall2_in_l _ _ _ d HF Hd) as (y & _ & _ & _ & ? & c & ? & _). eauto. }
  assert (Hein : In e (es1 ++ e :: es2)) by (apply in_or_app; right; now left).
  destruct (Ht e Hein) as [Hte [c Hc]].
  assert (Hnin : ~ In (ectx e) (map ectx es1)).
  { rewrite map_app in Hn. cbn [map] in Hn. intros Hin. apply (NoDup_app_disj _ _ (ectx e) Hn Hin). now left. }
  apply for_up_inv.
  - unfold fix_state. do 6 (split; [auto|]). split; [intros b c0 Hb; eauto|]. split; [lia|].
    intros k Hk. pose proof (xi_chain _ _ _ H gi k) as Hch. rewrite Ee, EL in Hch. apply Hch. lia.
  - intros K s1 HK (E1 & E2 & E3 & E4 & E5 & E6 & E7 & E8 & E9).
    assert (HKr : 0 <= K < NUMF) by (unfold NUMF in *; lia).
    rewrite Hte. assert (Hc1 : xheap s1 (ectx e) = Some c) by (rewrite E6; auto).
    rewrite (rd_tab_some _ _ _ _ Hc1). cbn [bind].
    pose proof (E9 K) as Hch. assert (HchK : chain (xheap s1) K (efn (xg s1 gi) K) (es1 ++ e :: es2) (L1 ++ x :: L2)) by (apply Hch; lia).
    clear Hch. pose proof (chain_tab_null _ _ _ _ _ _ _ _ _ _ HchK Hl Hc1) as Hnn.
    destruct (is_null (ctab c K)) eqn:En.
    + apply wp_ret. unfold fix_state. do 7 (split; [auto|]). split.
      * intros k Hk. destruct (Z.eq_dec k K) as [->|]; [|apply E8; lia].
        apply (chain_drop_null _ _ _ _ _ _ _ _ _ HchK Hl). auto.
      * intros k Hk. apply E9. lia.
    + rewrite E5, Ee.
      assert (Ht1 : forall d, In d es1 -> etab d = ectx d).
      { intros d Hd. apply Ht. apply in_or_app; now left. }
      destruct (fix_chain s1 K e es2 x L2 c es1 L1 _ None HchK Hl (eq_sym Hnn) Hc1 Hn Hp Ht1)
        as (r & Er & [[-> HC]|(e' & c' & Hin & -> & Hc' & HC)]); rewrite Er; cbn [bind].
      * apply wp_ret. unfold fix_state, wr_fn, set_graph. cbn [xnext xgen xmid xg xheap].
        do 3 (split; [auto|]). split; [intros gj Hj; rewrite upd_other by auto; auto|].
        rewrite upd_same. cbn [eexts efn]. split; [auto|]. split; [auto|]. split; [auto|]. split.
        -- intros k Hk. destruct (Z.eq_dec k K) as [->|]; [rewrite upd_same; exact HC|].
           rewrite upd_other by auto. apply E8; lia.
        -- intros k Hk. rewrite upd_other by lia. apply E9; lia.
      * unfold wr_tab. rewrite Hc'. apply wp_ret. unfold fix_state, set_heap. cbn [xnext xgen xmid xg xheap].
        do 5 (split; [auto|]). split.
        { intros b Hb. rewrite upd_other; [auto|]. intros ->. apply Hb. now apply in_map. }
        split.
        { intros b c0 Hb. destruct (E7 b c0 Hb) as (c1 & Hc1b & Hd1). rewrite upd_if.
          destruct (Z.eqb_spec b (ectx e')) as [->|]; [|eauto]. eexists. split; [reflexivity|].
          cbn [cdata]. congruence. }
        assert (HFr : forall k es f L, k <> K -> chain (xheap s1) k f es L ->
          chain (upd (xheap s1) (ectx e') (Some (mkCtx (upd (ctab c') K (ctab c K)) (cdata c')))) k f es L).
        { intros k es f L Hk HC1. apply (chain_frame (xheap s1)); [exact HC1|].
          intros d c0 Hd Ed. rewrite upd_if. destruct (Z.eqb_spec (ectx d) (ectx e')) as [E|]; [|eauto].
          eexists. split; [reflexivity|]. cbn [ctab]. rewrite upd_other by auto. congruence. }
        split.
        -- intros k Hk. destruct (Z.eq_dec k K) as [->|]; [exact HC|]. apply HFr; [auto|]. apply E8; lia.
        -- intros k Hk. apply HFr; [lia|]. apply E9; lia.
Qed.

Lemma Forall2_split {A B} (R : A -> B -> Prop) l1 x l2 L :
  Forall2 R (l1 ++ x :: l2) L -> exists L1 y L2, L = L1 ++ y :: L2 /\ length l1 = length L1 /\ R x y /\ Forall2 R l1 L1 /\ Forall2 R l2 L2.
Proof.
  intros H. apply Forall2_app_inv_l in H. destruct H as (L1 & L' & H1 & H2 & ->).
  inversion H2 as [|? y ? L2 Hxy H3]; subst. exists L1, y, L2. split; [auto|].
  split; [|auto]. clear - H1. induction H1; simpl; congruence.
Qed.

Lemma filter_split (L1 L2 : list att) x m :
  NoDup (map am (L1 ++ x :: L2)) -> am x = m ->
  filter (fun a => negb (am a =? m)) (L1 ++ x :: L2) = L1 ++ L2.
Proof.
  intros Hn <-.
  assert (Hid : forall L, ~ In (am x) (map am L) -> filter (fun a => negb (am a =? am x)) L = L).
  { induction L as [|y L IH]; simpl; [auto|]. intros Hni. destruct (Z.eqb_spec (am y) (am x)); [tauto|].
    simpl. rewrite IH; tauto. }
  rewrite map_app in Hn. cbn [map] in Hn. rewrite filter_app. cbn [filter]. rewrite Z.eqb_refl. cbn [negb].
  apply NoDup_remove_2 in Hn. rewrite in_app_iff in Hn. rewrite !Hid by tauto. reflexivity.
Qed.
Lemma filter_none L m : has L m = false -> filter (fun a => negb (am a =? m)) L = L.
Proof.
  intros Hh. apply has_false in Hh. induction L as [|y L IH]; simpl in *; [auto|].
  destruct (Z.eqb_spec (am y) m); [tauto|]. simpl. rewrite IH; tauto.
Qed.

Lemma xinv_ext s A A' kn kn' : (forall i, A' i = A i) -> (forall m, kn' m = kn m) -> xinv s A kn -> xinv s A' kn'.
Proof.
  intros E E' [I1 I2 I3 I4 I5 I6 I7 I8 I9 I10 I11]. split; auto.
  - intros gi. rewrite E. auto. - intros gi. rewrite E. auto. - intros gi. rewrite E. auto.
  - intros gi k Hk. rewrite E. auto. - intros m. rewrite E'. auto.
Qed.

Lemma detach_ok s A kn gi m : xinv s A kn ->
  exists s', detach s gi m = Ret (xanswer A kn (XDetach gi m), s') /\ xinv s' (xspec A (XDetach gi m)) kn.
Proof.
  intros H. unfold detach, gp_RemoveExtension. cbn [xanswer xspec].
  assert (Hnot : has (A gi) m = false -> xinv s (upd A gi (filter (fun a => negb (am a =? m)) (A gi))) kn).
  { intros Hh. apply (xinv_ext s A _ kn); auto. intros i. rewrite upd_if. destruct (Z.eqb_spec i gi) as [->|]; [|auto].
    now apply filter_none. }
  destruct (Z.eqb_spec (xmid s m) 0) as [E0|E0].
  - assert (Hk : kn m = false).
    { destruct (kn m) eqn:Ek; [|auto]. apply (xi_kn _ _ _ H) in Ek. congruence. }
    rewrite Hk. exists s. split; [reflexivity|]. apply Hnot. apply has_false. intros Hin.
    apply in_map_iff in Hin. destruct Hin as (a & <- & Ha).
    destruct (Forall2_in_r _ _ _ a (xi_lnk _ _ _ H gi) Ha) as (e & _ & _ & Hne & _). congruence.
  - assert (Hk : kn m = true) by (apply (xi_kn _ _ _ H); auto). rewrite Hk.
    pose proof (unhook_split (eexts (xg s gi)) (xmid s m)) as HU.
    destruct (unhook (eexts (xg s gi)) (xmid s m)) as [[e rest]|].
    + destruct HU as (es1 & es2 & Ee & Er & Eid & _). subst rest.
      pose proof (xi_lnk _ _ _ H gi) as HF. rewrite Ee in HF.
      destruct (Forall2_split _ _ _ _ _ HF) as (L1 & x & L2 & EL & Hl & Hex & HF1 & HF2).
      assert (Hx : am x = m).
      { destruct Hex as (J1 & J2 & _). apply (xi_inj _ _ _ H); congruence. }
      destruct (fixup_ok s A kn gi e es1 es2 x L1 L2 H Ee EL Hl) as (s1 & E1 & (F1 & F2 & F3 & F4 & F5 & F6 & F7 & F8 & _)).
      rewrite E1. cbn [bind]. unfold _FreeExtension, set_graph. cbn [xheap].
      destruct Hex as (_ & _ & _ & c & Hc & _). destruct (F7 _ _ Hc) as (c1 & Hc1 & _). rewrite Hc1. cbn [bind].
      eexists. split; [reflexivity|].
      pose proof (xi_mods _ _ _ H gi) as HM. rewrite EL in HM.
      pose proof (xi_ctx _ _ _ H gi) as Hn. rewrite Ee, map_app in Hn. cbn [map] in Hn.
      pose proof (xi_ptr _ _ _ H gi) as Hp. rewrite Ee, map_app in Hp. cbn [map] in Hp.
      pose proof (xi_ov _ _ _ H gi) as HO. rewrite EL in HO.
      assert (HA : forall gj, upd A gi (filter (fun a => negb (am a =? m)) (A gi)) gj = if gj =? gi then L1 ++ L2 else A gj).
      { intros gj. rewrite upd_if, EL. destruct (Z.eqb_spec gj gi); [|auto]. now apply filter_split. }
      assert (Hxg : forall gj, eexts (upd (xg s1) gi (mkEg (efn (xg s1 gi)) (es1 ++ es2)) gj) = if gj =? gi then es1 ++ es2 else eexts (xg s gj)).
      { intros gj. rewrite upd_if. destruct (Z.eqb_spec gj gi); [auto|]. now rewrite F4. }
      assert (Hother : forall gj d, gj <> gi -> In d (eexts (xg s gj)) ->
                upd (xheap s1) (ectx e) None (ectx d) = xheap s (ectx d)).
      { intros gj d Hj Hd. rewrite upd_other.
        - apply F6. intros Hin. apply in_map_iff in Hin. destruct Hin as (d' & Ed & Hd').
          apply Hj. eapply (xi_sep _ _ _ H); [exact Hd| |symmetry; exact Ed]. rewrite Ee. apply in_or_app; now left.
        - intros Ed. apply Hj. eapply (xi_sep _ _ _ H); [exact Hd| |exact Ed]. rewrite Ee. apply in_or_app; right; now left. }
      assert (Hne : forall d, In d (es1 ++ es2) -> ectx d <> ectx e).
      { intros d Hd Ed. apply NoDup_remove_2 in Hn. apply Hn. rewrite <- Ed, <- map_app. now apply in_map. }
      assert (Hsub : forall d, In d (es1 ++ es2) -> In d (eexts (xg s gi))).
      { intros d Hd. rewrite Ee. apply in_app_iff in Hd. apply in_app_iff. destruct Hd; [now left|right; now right]. }
      pose proof H as [I1 I2 I3 I4 I5 I6 I7 I8 I9 I10 I11].
      split; cbn [xheap xnext xgen xmid xg set_heap].
      * intros gj. rewrite HA, Hxg. unfold lnk. cbn [xmid xheap set_heap]. rewrite F3.
        destruct (Z.eqb_spec gj gi) as [->|Hj].
        -- assert (HFF : Forall2 (lnk s) (es1 ++ es2) (L1 ++ L2)) by (now apply Forall2_app).
           apply (Forall2_impl2 (lnk s)); [|exact HFF]. intros d b Hd (J1 & J2 & J3 & c0 & J4 & J5).
           rewrite upd_other by (now apply Hne). destruct (F7 _ _ J4) as (c2 & Hc2 & Hd2). split; [auto|].
           split; [auto|]. split; [auto|]. exists c2. split; [auto|congruence].
        -- apply (Forall2_impl2 (lnk s)); [|apply I1]. intros d b Hd (J1 & J2 & J3 & J4).
           rewrite (Hother gj d Hj Hd). auto.
      * intros gj. rewrite HA. destruct (Z.eqb_spec gj gi) as [->|Hj]; [|auto].
        rewrite map_app in *. cbn [map] in HM. eapply NoDup_remove_1; eauto.
      * intros gj. rewrite HA. destruct (Z.eqb_spec gj gi) as [->|Hj]; [|auto].
        apply Forall_app in HO. destruct HO as [HO1 HO2]. inversion_clear HO2. apply Forall_app. auto.
      * intros gj k Hk'. rewrite HA, Hxg. rewrite upd_if. destruct (Z.eqb_spec gj gi) as [->|Hj].
        -- cbn [efn]. apply (chain_frame (xheap s1)); [now apply F8|]. intros d c0 Hd Ed. exists c0.
           rewrite upd_other by (now apply Hne). auto.
        -- rewrite F4 by auto. apply (chain_frame (xheap s)); [auto|]. intros d c0 Hd Ed. exists c0.
           rewrite (Hother gj d Hj Hd). auto.
      * intros gj. rewrite Hxg. destruct (Z.eqb_spec gj gi) as [->|Hj]; [|auto].
        rewrite map_app. eapply NoDup_remove_1; eauto.
      * intros gj. rewrite Hxg. destruct (Z.eqb_spec gj gi) as [->|Hj]; [|auto].
        rewrite map_app. eapply NoDup_remove_1; eauto.
      * intros gj gl d d' Hd Hd'. rewrite Hxg in Hd, Hd'. apply I7.
        -- destruct (Z.eqb_spec gj gi) as [->|]; auto.
        -- destruct (Z.eqb_spec gl gi) as [->|]; auto.
      * intros gj d Hd. rewrite Hxg in Hd. rewrite F1. apply (I8 gj).
        destruct (Z.eqb_spec gj gi) as [->|]; auto.
      * intros m0. rewrite F2, F3. auto.
      * intros m0 m1. rewrite F3. auto.
      * intros m0. rewrite F3. auto.
    + exists s. split; [reflexivity|]. apply Hnot. apply has_false. intros Hin.
      apply in_map_iff in Hin. destruct Hin as (a & <- & Ha).
      destruct (Forall2_in_r _ _ _ a (xi_lnk _ _ _ H gi) Ha) as (e & He & Heq & _). exact (HU e He Heq).
Qed.

(** ** Freeing all extensions of a graph *)
Lemma free_list_ok l : forall s,
  NoDup (map ectx l) -> (forall e, In e l -> exists c, xheap s (ectx e) = Some c) ->
  exists s', free_list s l = Ret s' /\ xnext s' = xnext s /\ xgen s' = xgen s /\ xmid s' = xmid s /\ xg s' = xg s /\
    (forall b, ~ In b (map ectx l) -> xheap s' b = xheap s b).
Proof.
  induction l as [|e l IH]; intros s Hn Hc; cbn [free_list].
  - exists s. auto 10.
  - cbn [map] in Hn. apply NoDup_cons_iff in Hn. destruct Hn as [Hn1 Hn2].
    destruct (Hc e (or_introl eq_refl)) as (c & Ec). unfold _FreeExtension. rewrite Ec. cbn [bind].
    destruct (IH (set_heap s (upd (xheap s) (ectx e) None)) Hn2) as (s' & E & E1 & E2 & E3 & E4 & E5).
    { intros d Hd. unfold set_heap; cbn [xheap]. rewrite upd_other; [apply Hc; now right|].
      intros Ed. apply Hn1. rewrite <- Ed. now apply in_map. }
    exists s'. split; [exact E|]. do 4 (split; [auto|]). intros b Hb. cbn [map In] in Hb.
    rewrite E5 by tauto. unfold set_heap; cbn [xheap]. apply upd_other. intros ->. tauto.
Qed.

Lemma free_ok s A kn gi : xinv s A kn ->
  exists s', gp_FreeExtensions s gi = Ret s' /\ xinv s' (upd A gi []) kn.
Proof.
  intros H. unfold gp_FreeExtensions.
  destruct (free_list_ok (eexts (xg s gi)) s (xi_ctx _ _ _ H gi)) as (s1 & E & E1 & E2 & E3 & E4 & E5).
  { intros e He. destruct (Forall2_in_l _ _ _ e (xi_lnk _ _ _ H gi) He) as (y & _ & _ & _ & _ & c & Hc & _). eauto. }
  rewrite E. cbn [bind]. eexists. split; [reflexivity|]. unfold set_graph. rewrite E4.
  assert (Hxg : forall gj, eexts (upd (xg s) gi (mkEg base_table []) gj) = if gj =? gi then [] else eexts (xg s gj)).
  { intros gj. rewrite upd_if. now destruct (Z.eqb_spec gj gi). }
  assert (HA : forall gj, upd A gi [] gj = if gj =? gi then [] else A gj) by (intros; apply upd_if).
  assert (Hheap : forall gj d, gj <> gi -> In d (eexts (xg s gj)) -> xheap s1 (ectx d) = xheap s (ectx d)).
  { intros gj d Hj Hd. apply E5. intros Hin. apply in_map_iff in Hin. destruct Hin as (d' & Ed & Hd').
    apply Hj. eapply (xi_sep _ _ _ H); eauto. }
  destruct H as [I1 I2 I3 I4 I5 I6 I7 I8 I9 I10 I11].
  split; cbn [xheap xnext xgen xmid xg].
  - intros gj. rewrite HA, Hxg. destruct (Z.eqb_spec gj gi) as [->|Hj]; [constructor|].
    apply (Forall2_impl2 (lnk s)); [|apply I1]. intros d b Hd (J1 & J2 & J3 & J4).
    unfold lnk; cbn [xmid xheap]. rewrite E3, (Hheap gj d Hj Hd). auto.
  - intros gj. rewrite HA. destruct (Z.eqb_spec gj gi); [constructor|auto].
  - intros gj. rewrite HA. destruct (Z.eqb_spec gj gi); [constructor|auto].
  - intros gj k Hk. rewrite HA, Hxg, upd_if. destruct (Z.eqb_spec gj gi) as [->|Hj]; [reflexivity|].
    apply (chain_frame (xheap s)); [auto|]. intros d c0 Hd Ed. exists c0. now rewrite (Hheap gj d Hj Hd).
  - intros gj. rewrite Hxg. destruct (Z.eqb_spec gj gi); [constructor|auto].
  - intros gj. rewrite Hxg. destruct (Z.eqb_spec gj gi); [constructor|auto].
  - intros gj gl d d' Hd Hd'. rewrite Hxg in Hd, Hd'.
    destruct (Z.eqb_spec gj gi); [destruct Hd|]. destruct (Z.eqb_spec gl gi); [destruct Hd'|]. eauto.
  - intros gj d Hd. rewrite Hxg in Hd. rewrite E1. destruct (Z.eqb_spec gj gi); [destruct Hd|]. eauto.
  - intros m. rewrite E2, E3. auto.
  - intros m m'. rewrite E3. auto.
  - intros m. rewrite E3. auto.
Qed.

(** ** Histories *)
Lemma xstep_ok s A kn o : xinv s A kn -> xop_valid o ->
  exists s', xstep s o = Ret (xanswer A kn o, s') /\ xinv s' (xspec A o) (xknown kn o).
Proof.
  intros H Hv. destruct o as [gi m ov d|gi m|gi]; cbn [xstep xop_valid] in *.
  - apply (attach_ok s A kn gi m ov d H). exact Hv.
  - destruct (detach_ok s A kn gi m H) as (s' & E & H'). exists s'. auto.
  - destruct (free_ok s A kn gi H) as (s' & E & H'). rewrite E. exists s'. auto.
Qed.

Lemma xrun_ok os : forall s A kn, xinv s A kn -> Forall xop_valid os ->
  exists s' kn', xrun s os = Ret (xanswers A kn os, s') /\ xinv s' (xspec_run A os) kn'.
Proof.
  induction os as [|o os IH]; intros s A kn H Hv; cbn [xrun xanswers].
  - exists s, kn. auto.
  - inversion_clear Hv as [|? ? Hv1 Hv2]. destruct (xstep_ok s A kn o H Hv1) as (s1 & E & H1).
    rewrite E. cbn [bind]. destruct (IH s1 _ _ H1 Hv2) as (s' & kn' & E' & H'). rewrite E'. cbn [bind].
    exists s', kn'. auto.
Qed.

(** ** Duplicated graphs *)

(** The record of an extension whose table pointer is its own context's. *)
Definition own (e : ext) : ext := mkExt (eptr e) (eid e) (ectx e) (ectx e).
Definition owned (s : sys) (gi : Z) : sys :=
  set_graph s gi (mkEg (efn (xg s gi)) (map own (eexts (xg s gi)))).

(** [s] would satisfy the invariant if the records of [gi] pointed to their own tables, and the
    tables they do point to have the same contents and belong to no extension of [gi]. *)
Definition dinv (s : sys) (gi : Z) (A : attached) (kn : Z -> bool) : Prop :=
  xinv (owned s gi) A kn /\
  forall e, In e (eexts (xg s gi)) ->
    (exists c c', xheap s (ectx e) = Some c /\ xheap s (etab e) = Some c' /\
                  forall k, 0 <= k < NUMF -> ctab c' k = ctab c k) /\
    forall d, In d (eexts (xg s gi)) -> ectx d <> etab e.

Lemma find_own l id : find_ext (map own l) id = find_ext l id.
Proof. induction l as [|e l IH]; cbn [map find_ext own eid ectx]; [reflexivity|]. now rewrite IH. Qed.

Lemma gfind_own s gi gj id : gp_FindExtension (owned s gi) gj id = gp_FindExtension s gj id.
Proof.
  unfold gp_FindExtension, owned, set_graph. cbn [xg]. rewrite upd_if.
  destruct (Z.eqb_spec gj gi) as [->|]; [|reflexivity]. cbn [eexts]. now rewrite find_own.
Qed.

Lemma vcall_own s gi gj k : forall n f, vcall n (owned s gi) gj k f = vcall n s gj k f.
Proof.
  induction n as [|n IH]; intros f; cbn [vcall]; [reflexivity|]. destruct f as [| |m k' v]; try reflexivity.
  rewrite gfind_own. change (xmid (owned s gi) m) with (xmid s m).
  destruct (gp_FindExtension s gj (xmid s m)) as [a|]; [|reflexivity].
  change (rd_tab (owned s gi) a k) with (rd_tab s a k). destruct (rd_tab s a k); cbn [bind]; [|reflexivity|reflexivity].
  now rewrite IH.
Qed.

Lemma invoke_own s gi gj k : invoke (owned s gi) gj k = invoke s gj k.
Proof.
  unfold invoke. rewrite vcall_own. unfold owned, set_graph, rd_fn. cbn [xg].
  rewrite upd_if. destruct (Z.eqb_spec gj gi) as [->|]; [|reflexivity]. cbn [eexts efn]. now rewrite map_length.
Qed.

(** Repairing the tables for the most recently attached extension changes only the graph's own
    table. *)
Lemma fix_head s gi e es c : eexts (xg s gi) = e :: es -> xheap s (etab e) = Some c ->
  exists f s', _FixupFunctionTables s gi e = Ret s' /\
    xheap s' = xheap s /\ xnext s' = xnext s /\ xgen s' = xgen s /\ xmid s' = xmid s /\
    (forall gj, gj <> gi -> xg s' gj = xg s gj) /\ xg s' gi = mkEg f (e :: es) /\
    forall k, 0 <= k < NUMF -> f k = if is_null (ctab c k) then efn (xg s gi) k else ctab c k.
Proof.
  intros Ee Hc. unfold _FixupFunctionTables.
  enough (W : exists s', _FixupFunctionTables s gi e = Ret s' /\ exists f,
    xheap s' = xheap s /\ xnext s' = xnext s /\ xgen s' = xgen s /\ xmid s' = xmid s /\
    (forall gj, gj <> gi -> xg s' gj = xg s gj) /\ xg s' gi = mkEg f (e :: es) /\
    forall k, (0 <= k < 0 + Z.of_nat (Z.to_nat NUMF) -> f k = if is_null (ctab c k) then efn (xg s gi) k else ctab c k) /\
              (~ (0 <= k < 0 + Z.of_nat (Z.to_nat NUMF)) -> f k = efn (xg s gi) k)).
  { destruct W as (s' & E & f & W1 & W2 & W3 & W4 & W5 & W6 & W7). exists f, s'.
    do 7 (split; [auto|]). intros k Hk. apply W7. exact Hk. }
  unfold _FixupFunctionTables. apply wp_inv.
  apply (for_up_inv (fun K s' => exists f,
    xheap s' = xheap s /\ xnext s' = xnext s /\ xgen s' = xgen s /\ xmid s' = xmid s /\
    (forall gj, gj <> gi -> xg s' gj = xg s gj) /\ xg s' gi = mkEg f (e :: es) /\
    forall k, (0 <= k < K -> f k = if is_null (ctab c k) then efn (xg s gi) k else ctab c k) /\
              (~ (0 <= k < K) -> f k = efn (xg s gi) k))).
  - exists (efn (xg s gi)). do 5 (split; [auto|]). split; [rewrite <- Ee; now destruct (xg s gi)|].
    intros k. split; [lia|auto].
  - intros K s1 HK (f & W1 & W2 & W3 & W4 & W5 & W6 & W7).
    rewrite (rd_tab_some s1 _ _ c) by congruence. cbn [bind].
    destruct (is_null (ctab c K)) eqn:En.
    + apply wp_ret. exists f. do 6 (split; [auto|]). intros k. split; [|intros; apply W7; lia].
      intros Hk. destruct (Z.eq_dec k K) as [->|]; [rewrite En; apply W7; lia|apply W7; lia].
    + rewrite W6. cbn [eexts nearest]. rewrite Z.eqb_refl. cbn [bind]. apply wp_ret.
      exists (upd f K (ctab c K)). unfold wr_fn, set_graph. cbn [xheap xnext xgen xmid xg].
      do 4 (split; [auto|]). split; [intros gj Hj; rewrite upd_other; auto|].
      rewrite upd_same, W6. cbn [efn eexts]. split; [reflexivity|].
      intros k. split.
      * intros Hk. destruct (Z.eq_dec k K) as [->|]; [rewrite upd_same, En; reflexivity|].
        rewrite upd_other by auto. apply W7. lia.
      * intros Hk. rewrite upd_other by lia. apply W7. lia.
Qed.

Lemma xinv_agree s s' A kn :
  xheap s' = xheap s -> xnext s' = xnext s -> xgen s' = xgen s -> xmid s' = xmid s ->
  (forall gj, eexts (xg s' gj) = eexts (xg s gj)) ->
  (forall gj k, 0 <= k < NUMF -> efn (xg s' gj) k = efn (xg s gj) k) ->
  xinv s A kn -> xinv s' A kn.
Proof.
  intros E1 E2 E3 E4 E5 E6 [I1 I2 I3 I4 I5 I6 I7 I8 I9 I10 I11]. split; auto.
  - intros gi. rewrite E5. unfold lnk. rewrite E1, E4. apply I1.
  - intros gi k Hk. rewrite E1, E5, E6 by auto. auto.
  - intros gi. rewrite E5. auto.
  - intros gi. rewrite E5. auto.
  - intros gi gj e e'. rewrite !E5. eauto.
  - intros gi e. rewrite E5, E2. eauto.
  - intros m. rewrite E3, E4. auto.
  - intros m m'. rewrite E4. auto.
  - intros m. rewrite E4. auto.
Qed.

Lemma detach_head_dup s gi A kn a L : dinv s gi A kn -> A gi = a :: L ->
  exists s', detach s gi (am a) = Ret (C_OK, s') /\ dinv s' gi (upd A gi L) kn.
Proof.
  intros [H HT] EA.
  pose proof (xi_lnk _ _ _ H gi) as HF. rewrite EA in HF.
  assert (Exo0 : eexts (xg (owned s gi) gi) = map own (eexts (xg s gi))).
  { unfold owned, set_graph. cbn [xg]. rewrite upd_same. reflexivity. }
  rewrite Exo0 in HF.
  destruct (eexts (xg s gi)) as [|e es] eqn:Ee; cbn [map] in HF; [inversion HF|].
  inversion HF as [|? ? ? ? Hea HF']; subst. clear HF.
  destruct Hea as (J1 & J2 & _ & c & J4 & J5). cbn [own eid ectx] in *.
  change (xmid (owned s gi)) with (xmid s) in *. change (xheap (owned s gi)) with (xheap s) in *.
  destruct (HT e (or_introl eq_refl)) as [(c1 & c' & Hc1 & Hc' & Hcc) Hdis].
  assert (c1 = c) by congruence. subst c1.
  assert (Hk : kn (am a) = true) by (apply (xi_kn _ _ _ H); exact J2).
  (* the repaired state *)
  destruct (detach_ok (owned s gi) A kn gi (am a) H) as (s1 & E1 & H1).
  cbn [xspec] in H1. rewrite EA in H1.
  assert (Hfil : filter (fun x => negb (am x =? am a)) (a :: L) = L).
  { pose proof (xi_mods _ _ _ H gi) as HM. rewrite EA in HM. apply (filter_split [] L a (am a) HM eq_refl). }
  rewrite Hfil in H1.
  unfold detach, gp_RemoveExtension in E1. change (xmid (owned s gi)) with (xmid s) in E1.
  unfold detach, gp_RemoveExtension.
  destruct (Z.eqb_spec (xmid s (am a)) 0) as [E0|_]; [congruence|].
  assert (Exo : eexts (xg (owned s gi) gi) = own e :: map own es) by exact Exo0.
  rewrite Exo in E1. rewrite Ee. cbn [unhook] in *. cbn [own eid] in E1. rewrite J1, Z.eqb_refl in *.
  destruct (fix_head (owned s gi) gi (own e) (map own es) c Exo J4) as (f0 & s0 & F0 & F1 & F2 & F3 & F4 & F5 & F6 & F7).
  rewrite F0 in E1. cbn [bind] in E1.
  destruct (fix_head s gi e es c' Ee Hc') as (f2 & s2 & G0 & G1 & G2 & G3 & G4 & G5 & G6 & G7).
  rewrite G0. cbn [bind]. unfold _FreeExtension, set_graph in *. cbn [xheap ectx own] in *.
  change (xheap (owned s gi)) with (xheap s) in *.
  rewrite F1, J4 in E1. cbn [bind] in E1. rewrite G1, J4. cbn [bind].
  injection E1 as _ E1. eexists. split; [reflexivity|].
  assert (Hne : forall d, In d es -> ectx d <> ectx e).
  { intros d Hd Ed. pose proof (xi_ctx _ _ _ H gi) as Hn. rewrite Exo in Hn. cbn [map own ectx] in Hn.
    apply NoDup_cons_iff in Hn. destruct Hn as [Hn _]. apply Hn. rewrite map_map. cbn [own ectx].
    apply in_map_iff. eauto. }
  split.
  - apply (xinv_agree s1); [..|exact H1]; subst s1; unfold owned, set_graph, set_heap; cbn [xheap xnext xgen xmid xg].
    + congruence.
    + rewrite G2, F2; reflexivity.
    + rewrite G3, F3; reflexivity.
    + rewrite G4, F4; reflexivity.
    + intros gj. rewrite !upd_if. destruct (Z.eqb_spec gj gi) as [->|Hj].
      * rewrite Z.eqb_refl. reflexivity.
      * rewrite F5, G5 by auto. unfold owned, set_graph; cbn [xg]. now rewrite upd_other.
    + intros gj k Hkk. rewrite !upd_if. destruct (Z.eqb_spec gj gi) as [->|Hj].
      * rewrite Z.eqb_refl. cbn [efn]. rewrite F6, G6. cbn [efn]. rewrite F7, G7, Hcc by auto.
        unfold owned, set_graph; cbn [xg]. rewrite upd_same. reflexivity.
      * rewrite F5, G5 by auto. unfold owned, set_graph; cbn [xg]. now rewrite upd_other.
  - unfold set_heap. cbn [xheap xg]. rewrite upd_same. cbn [eexts]. intros d Hd.
    destruct (HT d (or_intror Hd)) as [(c3 & c4 & Hc3 & Hc4 & Hcc') Hdis'].
    split; [|intros x Hx; apply Hdis'; now right].
    exists c3, c4. rewrite !upd_other; auto. intros E. symmetry in E. revert E. apply Hdis'. now left.
Qed.

Lemma copy_list_ok l : forall s acc,
  (forall e, In e l -> exists c, xheap s (ectx e) = Some c /\ ectx e < xnext s) ->
  exists s' l', copy_list s l acc = Ret (s', acc ++ l') /\
    xgen s' = xgen s /\ xmid s' = xmid s /\ xg s' = xg s /\ xnext s <= xnext s' /\
    (forall b, b < xnext s -> xheap s' b = xheap s b) /\
    Forall2 (fun e e' => eid e' = eid e /\ etab e' = etab e /\ xheap s' (ectx e') = xheap s (ectx e) /\
                         xnext s <= ectx e' < xnext s' /\ xnext s <= eptr e' < xnext s') l l' /\
    NoDup (map ectx l') /\ NoDup (map eptr l').
Proof.
  induction l as [|e l IH]; intros s acc Hl; cbn [copy_list].
  - exists s, []. rewrite app_nil_r. do 4 (split; [reflexivity|]). split; [lia|]. split; [reflexivity|].
    split; [constructor|]. split; constructor.
  - destruct (Hl e (or_introl eq_refl)) as (c & Ec & Hec). rewrite Ec. cbn zeta.
    set (a := xnext s + 1). set (s1 := mkSys _ _ _ _ _).
    destruct (IH s1 (acc ++ [mkExt (a - 1) (eid e) a (etab e)])) as (s' & l' & E & E1 & E2 & E3 & E4 & E5 & E6 & E7 & E8).
    { intros d Hd. destruct (Hl d (or_intror Hd)) as (c0 & E0 & H0). exists c0. unfold s1. cbn [xheap xnext].
      rewrite upd_other by (unfold a; lia). split; [auto|lia]. }
    exists s', (mkExt (a - 1) (eid e) a (etab e) :: l'). rewrite E, <- app_assoc. split; [reflexivity|].
    unfold s1 in *. cbn [xheap xnext xgen xmid xg] in *.
    do 3 (split; [auto|]). split; [lia|]. split.
    { intros b Hb. rewrite E5 by lia. apply upd_other. unfold a; lia. }
    split.
    { constructor.
      - cbn [eid etab ectx eptr]. split; [auto|]. split; [auto|]. split; [|unfold a; lia].
        rewrite E5 by (unfold a; lia). rewrite upd_same. auto.
      - assert (HH : forall d, In d l -> ectx d < xnext s) by (intros d Hd; destruct (Hl d (or_intror Hd)) as (? & ? & ?); auto).
        revert HH. clear - E6 a. induction E6 as [|d d' l l' (K1 & K2 & K3 & K4 & K5) HF IH2]; intros HH; constructor.
        + split; [auto|]. split; [auto|]. split; [|lia]. rewrite K3. apply upd_other.
          pose proof (HH d (or_introl eq_refl)). unfold a; lia.
        + apply IH2. intros; apply HH; now right. }
    assert (Hfr : forall d', In d' l' -> a + 1 <= ectx d' /\ a + 1 <= eptr d').
    { intros d' Hd'. destruct (Forall2_in_r _ _ _ d' E6 Hd') as (d & _ & _ & _ & _ & ? & ?). unfold a. lia. }
    cbn [map ectx eptr]. split; constructor; auto; intros Hin; apply in_map_iff in Hin; destruct Hin as (d' & Ed & Hd');
      pose proof (Hfr d' Hd'); lia.
Qed.

Lemma dup_ok s A kn dst src : xinv s A kn -> dst <> src ->
  exists s', copy_graph_exts s dst src = Ret (C_OK, s') /\ dinv s' dst (upd A dst (A src)) kn /\
    (forall gj, gj <> dst -> xg s' gj = xg s gj) /\
    Forall2 (fun e e' => eid e' = eid e) (eexts (xg s src)) (eexts (xg s' dst)) /\
    (forall e e', In e (eexts (xg s src)) -> In e' (eexts (xg s' dst)) -> ectx e' <> ectx e).
Proof.
  intros H Hds. unfold copy_graph_exts, gp_CopyExtensions.
  destruct (free_ok s A kn dst H) as (s1 & E1 & H1).
  assert (Hg1 : forall gj, gj <> dst -> xg s1 gj = xg s gj).
  { intros gj Hj. unfold gp_FreeExtensions in E1.
    destruct (free_list_ok (eexts (xg s dst)) s (xi_ctx _ _ _ H dst)) as (s2 & F & _ & _ & _ & F4 & _).
    { intros e He. destruct (Forall2_in_l _ _ _ e (xi_lnk _ _ _ H dst) He) as (y & _ & _ & _ & _ & c & Hc & _). eauto. }
    rewrite F in E1. cbn [bind] in E1. injection E1 as <-. unfold set_graph. cbn [xg]. rewrite upd_other by auto.
    now rewrite F4. }
  assert (Hgd : eexts (xg s1 dst) = []).
  { pose proof (xi_lnk _ _ _ H1 dst) as HF. rewrite upd_same in HF. now inversion HF. }
  rewrite E1. cbn [bind].
  destruct (copy_list_ok (eexts (xg s1 src)) s1 []) as (s2 & l' & E2 & F1 & F2 & F3 & F4 & F5 & F6 & F7 & F8).
  { intros e He. destruct (Forall2_in_l _ _ _ e (xi_lnk _ _ _ H1 src) He) as (y & _ & _ & _ & _ & c & Hc & _).
    exists c. split; [auto|]. apply (xi_next _ _ _ H1 src e He). }
  rewrite E2. cbn [bind app]. eexists. split; [reflexivity|].
  assert (Hold : forall gj e, In e (eexts (xg s1 gj)) -> xheap s2 (ectx e) = xheap s1 (ectx e)).
  { intros gj e He. apply F5. apply (xi_next _ _ _ H1 gj e He). }
  assert (Hfr : forall e', In e' l' -> xnext s1 <= ectx e' < xnext s2 /\ xnext s1 <= eptr e' < xnext s2).
  { intros e' He'. destruct (Forall2_in_r _ _ _ e' F6 He') as (e & _ & _ & _ & _ & ? & ?). auto. }
  pose proof H1 as [I1 I2 I3 I4 I5 I6 I7 I8 I9 I10 I11].
  assert (HAs : upd A dst [] src = A src) by (now rewrite upd_other by auto).
  unfold set_graph. cbn [xheap xnext xgen xmid xg]. rewrite F3 in *.
  assert (Hxo : forall gj, eexts (upd (upd (upd (xg s1) dst (mkEg (efn (xg s1 dst)) l')) dst
        (mkEg (efn (upd (xg s1) dst (mkEg (efn (xg s1 dst)) l') src)) (eexts (upd (xg s1) dst (mkEg (efn (xg s1 dst)) l') dst)))) dst
        (mkEg (efn (xg s1 src)) (map own l')) gj) = if gj =? dst then map own l' else eexts (xg s1 gj)).
  { intros gj. rewrite !upd_if. destruct (Z.eqb_spec gj dst); reflexivity. }
  split; [split|].
  - unfold owned, set_graph. cbn [xheap xnext xgen xmid xg]. rewrite !upd_same. cbn [eexts efn].
    rewrite (upd_other (xg s1) dst) by auto.
    set (gs := upd (upd (upd (xg s1) dst _) dst _) dst (mkEg (efn (xg s1 src)) (map own l'))).
    assert (Hgs : forall gj, gs gj = if gj =? dst then mkEg (efn (xg s1 src)) (map own l') else xg s1 gj).
    { intros gj. unfold gs. rewrite !upd_if. destruct (Z.eqb_spec gj dst); reflexivity. }
    clearbody gs. clear Hxo.
    assert (HA : forall gj, upd A dst (A src) gj = if gj =? dst then A src else upd A dst [] gj).
    { intros gj. rewrite !upd_if. destruct (Z.eqb_spec gj dst); reflexivity. }
    split; cbn [xheap xnext xgen xmid xg]; auto.
    + intros gj. rewrite Hgs, HA. unfold lnk. cbn [xheap xmid]. rewrite F2.
      destruct (Z.eqb_spec gj dst) as [->|Hj]; cbn [eexts].
      * pose proof (I1 src) as HL. rewrite HAs in HL. revert HL. clear - F6. generalize (A src).
        induction F6 as [|e e' l l' (K1 & K2 & K3 & _) HF IH]; intros L HL; inversion HL as [|? b ? L' Hl HL']; subst; cbn [map]; constructor.
        -- destruct Hl as (J1 & J2 & J3 & c & J4 & J5). cbn [own eid ectx etab]. split; [congruence|]. split; [auto|].
           split; [auto|]. exists c. split; [congruence|auto].
        -- now apply IH.
      * apply (Forall2_impl2 (lnk s1)); [|apply I1]. intros d b Hd (J1 & J2 & J3 & J4).
        rewrite (Hold gj d Hd). auto.
    + intros gj. rewrite HA. destruct (Z.eqb_spec gj dst); [rewrite <- HAs|]; auto.
    + intros gj. rewrite HA. destruct (Z.eqb_spec gj dst); [rewrite <- HAs|]; auto.
    + intros gj k Hk. rewrite Hgs, HA. destruct (Z.eqb_spec gj dst) as [->|Hj]; cbn [eexts efn].
      * pose proof (I4 src k Hk) as HC. rewrite HAs in HC. revert HC. clear - F6. generalize (efn (xg s1 src) k) (A src).
        induction F6 as [|e e' l l' (K1 & K2 & K3 & _) HF IH]; intros f L HC; destruct L as [|b L]; cbn [chain map] in *; auto.
        cbn [own ectx]. rewrite K3. destruct (xheap s1 (ectx e)) as [c|]; [|auto].
        destruct (is_null (aov b k)); destruct HC as [HC1 HC2]; split; auto.
      * apply (chain_frame (xheap s1)); [auto|]. intros d c0 Hd Ed. exists c0. now rewrite (Hold gj d Hd).
    + intros gj. rewrite Hgs. destruct (Z.eqb_spec gj dst) as [->|Hj]; cbn [eexts]; [|auto].
      rewrite map_map. exact F7.
    + intros gj. rewrite Hgs. destruct (Z.eqb_spec gj dst) as [->|Hj]; cbn [eexts]; [|auto].
      rewrite map_map. exact F8.
    + assert (HX : forall gj d d', gj <> dst -> In d (map own l') -> In d' (eexts (xg s1 gj)) -> ectx d <> ectx d').
      { intros gj d d' Hj Hd Hd'. apply in_map_iff in Hd. destruct Hd as (d0 & <- & Hd0). cbn [own ectx].
        pose proof (Hfr d0 Hd0). pose proof (I8 gj d' Hd'). lia. }
      intros gj gl d d'. rewrite !Hgs.
      destruct (Z.eqb_spec gj dst) as [->|Hj], (Z.eqb_spec gl dst) as [->|Hl']; cbn [eexts]; auto.
      * intros Hd Hd' E. exfalso. eapply HX; eauto.
      * intros Hd Hd' E. exfalso. eapply HX; [exact Hj|exact Hd'|exact Hd|auto].
      * eauto.
    + intros gj d. rewrite Hgs. destruct (Z.eqb_spec gj dst) as [->|Hj]; cbn [eexts].
      * intros Hd. apply in_map_iff in Hd. destruct Hd as (d0 & <- & Hd0). cbn [own ectx eptr].
        pose proof (Hfr d0 Hd0). lia.
      * intros Hd. pose proof (I8 gj d Hd). lia.
    + intros m. rewrite F1, F2. auto.
    + intros m m'. rewrite F2. auto.
    + intros m. rewrite F2. auto.
  - cbn [xheap xg]. rewrite !upd_same. cbn [eexts]. intros e' He'.
    destruct (Forall2_in_r _ _ _ e' F6 He') as (e & He & K1 & K2 & K3 & K4 & K5).
    destruct (Forall2_in_l _ _ _ e (I1 src) He) as (y & _ & _ & _ & Ht & c & Hc & _).
    split.
    + exists c, c. split; [congruence|]. split; [|auto]. rewrite K2, Ht, (Hold src e He). auto.
    + intros d Hd. pose proof (Hfr d Hd). pose proof (I8 src e He). rewrite K2, Ht. lia.
  - split.
    + intros gj Hj. rewrite !upd_other by auto. auto.
    + rewrite !upd_same. cbn [eexts]. rewrite <- (Hg1 src) by auto. split.
      * revert F6. apply Forall2_impl2. intros; tauto.
      * intros e e' He He'. pose proof (Hfr e' He'). pose proof (I8 src e He). lia.
Qed.

Lemma lifo_ok dst n : forall s A kn, dinv s dst A kn -> (n <= length (A dst))%nat ->
  exists s', xrun s (map (fun a => XDetach dst (am a)) (firstn n (A dst))) = Ret (repeat C_OK n, s') /\
    dinv s' dst (upd A dst (skipn n (A dst))) kn.
Proof.
  induction n as [|n IH]; intros s A kn H Hn.
  - exists s. cbn [firstn map xrun repeat skipn]. split; [reflexivity|]. destruct H as [H H2]. split; [|exact H2].
    apply (xinv_ext _ A _ kn); auto. intros i. rewrite upd_if. now destruct (Z.eqb_spec i dst) as [->|].
  - destruct (A dst) as [|a L] eqn:EA; [simpl in Hn; lia|]. cbn [firstn map xrun xstep repeat skipn].
    destruct (detach_head_dup s dst A kn a L H EA) as (s1 & E1 & H1). rewrite E1. cbn [bind].
    destruct (IH s1 (upd A dst L) kn H1) as (s' & E & H'); [rewrite upd_same; simpl in Hn; lia|].
    rewrite upd_same in E, H'. rewrite E. cbn [bind]. exists s'. split; [reflexivity|].
    destruct H' as [H' H2]. split; [|exact H2]. apply (xinv_ext _ (upd (upd A dst L) dst (skipn n L)) _ kn); auto.
    intros i. rewrite !upd_if. now destruct (Z.eqb_spec i dst).
Qed.
