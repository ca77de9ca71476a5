(** * IsoKX: the walk that marks the X-Y path, in general: what is left of a walk when its loops are erased. *)
From Coq Require Import ZifyBool Permutation.
From Verif Require Import Base BaseP GraphRec GraphM GraphSpec GSimp LinkP GraphP GraphP2 GraphP6 GraphP7 ListM DFSM DFSSpec DFSP TestM TestSpec TestP EmbM EmbSpec EmbP FaceP FanP IsoM IsoP1 IsoO2 IsoX.

(** Stack entries, the top one first: the arc by which a vertex was reached, and the closed walk from it since. *)
Notation fr := (Z * list Z)%type (only parsing).
Fixpoint flat (st : list fr) : list Z := match st with [] => [] | (t, c) :: r => flat r ++ t :: c end.
Lemma flat_app s1 s2 : flat (s1 ++ s2) = flat s2 ++ flat s1.
Proof. induction s1 as [|[t c] s1 IH]; cbn [app flat]; [now rewrite app_nil_r|]. now rewrite IH, app_assoc. Qed.

Section W.
Variables (k : graph) (A : Z -> list Z).
Local Notation nb := (enbr k).
Hypothesis C : chains k A.
Hypothesis T : twins_ok k A.
Definition qs (st : list fr) : list Z := map (fun q => nb (fst q)) st.
(** [u] follows [t] when turning to the previous arc. *)
Definition pv (t u : Z) : Prop := In t (A (nb (twin t))) /\ In u (A (nb t)) /\ cnext (A (nb t)) u = twin t.
Fixpoint wch (t : Z) (l : list Z) : Prop := match l with [] => True | u :: r => pv t u /\ wch u r end.
Lemma prevc Fv Fe S t u : pv t u -> gp_GetPrevArcCircular (mk k Fv Fe S) (twin t) = Ret u.
Proof.
  intros (H1 & H2 & H3). destruct (T _ _ H1) as [T1 T2]. destruct (in_split _ _ H2) as (l1 & l2 & E). pose proof (ch_nodup _ _ C (nb t)) as Nd. rewrite E in Nd. rewrite E, (cnext_split _ _ _ Nd) in H3.
  destruct l2 as [|y l2].
  - (* u is the last arc *)
    destruct l1 as [|q l1].
    + cbn [hd] in H3. subst u. assert (E' : A (nb t) = [] ++ twin t :: []) by exact E. unfold gp_GetPrevArcCircular. rewrite get_prev by (apply (E_in k A C [] (nb t)); exact T2). cbn [bind]. change (eprev (mk k Fv Fe S) (twin t)) with (eprev k (twin t)).
      destruct (chains_links k A _ _ _ _ C E') as [-> _]. cbn [last Z.eqb]. change (NIL =? NIL) with true. cbv iota. rewrite twin_eq, twin_invol. rewrite (mk_nbr k A C [] _ _ _ _ _ H1). cbn [bind].
      rewrite get_last by (exact (V_in k A C [] _ _ T2)). change (vlast (mk k Fv Fe S) (nb t)) with (vlast k (nb t)). rewrite (ch_last _ _ C) by (exact (ch_isvertex _ _ _ _ C T2)). rewrite E. reflexivity.
    + cbn [hd] in H3. subst q. assert (E' : A (nb t) = [] ++ twin t :: (l1 ++ [u])) by (rewrite E; reflexivity). unfold gp_GetPrevArcCircular. rewrite get_prev by (apply (E_in k A C [] (nb t)); exact T2). cbn [bind]. change (eprev (mk k Fv Fe S) (twin t)) with (eprev k (twin t)).
      destruct (chains_links k A _ _ _ _ C E') as [-> _]. change (last [] NIL =? NIL) with true. cbv iota. rewrite twin_eq, twin_invol. rewrite (mk_nbr k A C [] _ _ _ _ _ H1). cbn [bind].
      rewrite get_last by (exact (V_in k A C [] _ _ T2)). change (vlast (mk k Fv Fe S) (nb t)) with (vlast k (nb t)). rewrite (ch_last _ _ C) by (exact (ch_isvertex _ _ _ _ C T2)). rewrite E. change (twin t :: l1 ++ [u]) with ((twin t :: l1) ++ [u]). now rewrite last_snoc.
  - cbn [hd] in H3. subst y. rewrite (mk_prev k A C [] Fv Fe S (nb t) (l1 ++ [u]) (twin t) l2); [now rewrite last_snoc|rewrite E, <- app_assoc; reflexivity|destruct l1; discriminate].
Qed.

(** ** Popping *)
Variables (S0 : list Z) (g0 : graph) (F0 : Z -> Z).
Definition mst (st : list fr) : list Z := flat_map (fun q => [nb (fst q); twin (fst q)]) st ++ S0.
Lemma mst_len st : length (mst st) = (2 * length st + length S0)%nat.
Proof. unfold mst. rewrite app_length. f_equal. induction st as [|q st IH]; [reflexivity|]. cbn [flat_map app length]. rewrite IH. lia. Qed.
Fixpoint clrV (F : Z -> Z) (st : list fr) : Z -> Z := match st with [] => F | q :: r => clrV (upd F (nb (fst q)) (Z.ldiff (F (nb (fst q))) VERTEX_VISITED_MASK)) r end.
Fixpoint clrE (F : Z -> Z) (st : list fr) : Z -> Z := match st with [] => F | q :: r => clrE (let e := twin (fst q) in let F1 := upd F e (Z.ldiff (F e) EDGE_VISITED_MASK) in upd F1 (twin e) (Z.ldiff (F1 (twin e)) EDGE_VISITED_MASK)) r end.
Definition okst (st : list fr) : Prop := forall q, In q st -> In (fst q) (A (nb (twin (fst q)))).
Lemma pop_ok z s2 : (s2 = [] \/ exists q r, s2 = q :: r /\ nb (fst q) = z) -> forall s1 Fv Fe n, okst s1 -> ~ In z (qs s1) -> Z.of_nat (length (mst (s1 ++ s2))) <= gstackCap k -> (length s1 < n)%nat ->
  pop_unmark n (mk k Fv Fe (mst (s1 ++ s2))) z (Z.of_nat (length S0)) = Ret (mk k (clrV Fv s1) (clrE Fe s1) (mst s2)).
Proof.
  intros H2. induction s1 as [|q s1 IH]; intros Fv Fe n Ok Nz Cp Hn; (destruct n as [|n]; [lia|]); cbn [pop_unmark]; unfold stk_size; change (gstack (mk k Fv Fe ?c)) with c; cbn [app].
  - cbn [app] in Cp. rewrite mst_len in Cp |- *. destruct H2 as [->|(q & r & -> & Eq)].
    + cbn [length]. replace (_ <=? _) with true by lia. reflexivity.
    + cbn [length] in *. replace (_ <=? _) with false by lia. unfold mst at 1. cbn [flat_map app]. rewrite mk_pop. cbn [bind]. rewrite Eq, Z.eqb_refl.
      rewrite (mk_push k []) by (cbn [length]; fold (mst r); rewrite mst_len; lia). rewrite <- Eq. reflexivity.
  - cbn [app] in Cp. rewrite mst_len in Cp |- *. cbn [length] in Cp, Hn |- *. rewrite app_length in Cp |- *. replace (_ <=? _) with false by lia. unfold mst at 1. cbn [flat_map app]. rewrite mk_pop. cbn [bind].
    assert (Hq : In (fst q) (A (nb (twin (fst q))))) by (apply Ok; now left). destruct (T _ _ Hq) as [_ T2].
    rewrite eqb_false_neq by (intros Q; apply Nz; now left). rewrite mk_pop. cbn [bind]. rewrite mk_clr by (exact (V_in k A C [] _ _ T2)). cbn [bind]. rewrite mk_eclr by (exact (E_in k A C [] _ _ T2)). cbn [bind]. change (gp_GetTwinArc (twin (fst q))) with (twin (twin (fst q))). rewrite mk_eclr by (rewrite twin_invol; exact (E_in k A C [] _ _ Hq)). cbn [bind].
    fold (mst (s1 ++ s2)). cbn [clrV clrE]. apply IH; [intros q' Hq'; apply Ok; now right|intros Q; apply Nz; now right| |lia]. rewrite mst_len, app_length. lia.
Qed.
Lemma clrV_vis st : forall F x, Z.land (clrV F st x) VERTEX_VISITED_MASK <> 0 <-> Z.land (F x) VERTEX_VISITED_MASK <> 0 /\ ~ In x (qs st).
Proof.
  induction st as [|q st IH]; intros F x; cbn [clrV qs map In]; [tauto|]. rewrite IH. fold (qs st). unfold upd. destruct (Z.eqb_spec x (nb (fst q))) as [->|Q].
  - rewrite land1_ldiff. intuition.
  - intuition.
Qed.
Lemma clrV_ty st : forall F x, Z.land (clrV F st x) VERTEX_OBSTRUCTIONTYPE_MASK = Z.land (F x) VERTEX_OBSTRUCTIONTYPE_MASK.
Proof. induction st as [|q st IH]; intros F x; cbn [clrV]; [auto|]. rewrite IH. unfold upd. destruct (Z.eqb_spec x (nb (fst q))) as [->|Q]; [now apply ldiff_other|auto]. Qed.
Lemma clrE_marked st : forall F ME ME', marked g0 F0 F ME -> (forall x, (In x ME' \/ In (twin x) ME') <-> (In x ME \/ In (twin x) ME) /\ ~ In x (map fst st) /\ ~ In (twin x) (map fst st)) -> marked g0 F0 (clrE F st) ME'.
Proof.
  induction st as [|q st IH]; intros F ME ME' M H; cbn [clrE].
  - eapply marked_mem; [exact M|]. intros x. rewrite H. cbn [map In]. tauto.
  - set (F1 := let e := twin (fst q) in let F1 := upd F e (Z.ldiff (F e) EDGE_VISITED_MASK) in upd F1 (twin e) (Z.ldiff (F1 (twin e)) EDGE_VISITED_MASK)).
    set (keep := fun x => negb ((x =? fst q) || (x =? twin (fst q)))).
    assert (Hk : forall x, keep x = true <-> x <> fst q /\ x <> twin (fst q)) by (intros x; unfold keep; lia).
    apply (IH F1 (filter keep ME)).
    + constructor.
      * intros x. rewrite <- (m_ty _ _ _ _ M x). unfold F1, upd. cbv zeta. rewrite twin_invol. destruct (Z.eqb_spec x (fst q)) as [->|Q1].
        -- rewrite land_ldiff_1 by reflexivity. destruct (Z.eqb_spec (fst q) (twin (fst q))) as [E|E]; [exfalso; symmetry in E; revert E; apply twin_neq|auto].
        -- destruct (Z.eqb_spec x (twin (fst q))) as [->|Q2]; [now apply land_ldiff_1|auto].
      * intros x Hx. rewrite !filter_In, !Hk. pose proof (m_vis _ _ _ _ M x Hx) as V. unfold F1, upd. cbv zeta. rewrite twin_invol. destruct (Z.eqb_spec x (fst q)) as [->|Q1].
        -- rewrite land1_ldiff. split; [congruence|]. intros [(_ & Q & _)|(_ & _ & Q)]; congruence.
        -- destruct (Z.eqb_spec x (twin (fst q))) as [->|Q2]; [rewrite land1_ldiff, twin_invol; split; [congruence|]; intros [(_ & _ & Q)|(_ & Q & _)]; congruence|]. rewrite V. split; [|tauto].
           assert (twin x <> fst q) by (intros Q; rewrite <- Q, twin_invol in Q2; congruence). assert (twin x <> twin (fst q)) by (intros Q; apply twin_inj in Q; congruence). tauto.
    + intros x. rewrite H. cbn [map In]. rewrite !filter_In, !Hk.
      assert (X1 : fst q = x <-> twin x = twin (fst q)) by (split; [intros <-; auto|intros Q; apply twin_inj in Q; auto]). assert (X2 : fst q = twin x <-> x = twin (fst q)) by (split; [intros ->; now rewrite twin_invol|intros ->; now rewrite twin_invol]).
      assert (X3 : twin x = fst q <-> fst q = twin x) by (split; auto). assert (X4 : x = fst q <-> fst q = x) by (split; auto). rewrite <- X1, X3, X2, X4. tauto.
Qed.

(** ** The walk *)
Variables (W R : Z) (T0 : Z -> Z) (ws : list Z) (cp : nat).
Hypothesis RW : forall t, In t ws -> nb t <> W.
Hypothesis Cap : Z.of_nat (length S0) + 2 * Z.of_nat cp + 2 <= gstackCap k.
Hypothesis Len : forall l, NoDup l -> incl l (map nb ws) -> (length l <= cp)%nat.
Hypothesis Bd : gp_EdgeInUseIndexBound g0 <= gp_EdgeIndexBound k.
(** the vertices of a stack, without the lowest *)
Record good (st : list fr) : Prop := {
  gd_nd : NoDup (qs st);
  gd_src : forall s1 t c t' c' s2, st = s1 ++ (t, c) :: (t', c') :: s2 -> nb (twin t) = nb t';
  gd_cl : forall t c, In (t, c) st -> c = [] \/ nb (last c NIL) = nb t;
  gd_out : forall s1 t c s2 x, st = s1 ++ (t, c) :: s2 -> In x c -> ~ In (nb x) (qs s2);
  gd_ty : forall s1 t c, st = s1 ++ [(t, c)] -> is_RXW (T0 (nb t)) = true /\ (forall x, In x (c ++ flat s1) -> nb x = nb t \/ T0 (nb x) = 0);
  gd_arc : forall x, In x (flat st) -> In x (A (nb (twin x))) }.
Definition px (st : list fr) : Z := nb (fst (last st (NIL, []))).
Record fl_ok (Fv Fe : Z -> Z) (st : list fr) : Prop := {
  fo_vis : forall x, In x (map nb ws) -> Z.land (Fv x) VERTEX_VISITED_MASK <> 0 <-> In x (qs st);
  fo_ty : forall x, Z.land (Fv x) VERTEX_OBSTRUCTIONTYPE_MASK = T0 x;
  fo_mk : marked g0 F0 Fe (map fst (removelast st)) }.
Lemma in_flat st x : In x (flat st) <-> exists q, In q st /\ (x = fst q \/ In x (snd q)).
Proof.
  induction st as [|[t c] st IH]; cbn [flat]; [split; [intros []|intros (q & [] & _)]|]. rewrite in_app_iff, IH. cbn [In]. split.
  - intros [(q & Q1 & Q2)|[<-|Q]]; [exists q; auto|exists (t, c); auto|exists (t, c); auto].
  - intros (q & [<-|Q1] & Q2); [right; destruct Q2 as [->|Q2]; auto|left; eauto].
Qed.
Lemma good_pop s1 t c s2 u : good (s1 ++ (t, c) :: s2) -> nb u = nb t -> In u (A (nb (twin u))) -> good ((t, c ++ flat s1 ++ [u]) :: s2).
Proof.
  intros G Eu Au. constructor.
  - pose proof (gd_nd _ G) as Nd. unfold qs in *. rewrite map_app in Nd. now apply NoDup_app_r in Nd.
  - intros k1 t1 c1 t2 c2 k2 E. destruct k1 as [|q k1]; cbn [app] in E; injection E as E1 E2.
    + subst t1 s2. apply (gd_src _ G s1 t c t2 c2 k2). reflexivity.
    + subst q s2. apply (gd_src _ G (s1 ++ (t, c) :: k1) t1 c1 t2 c2 k2). rewrite <- app_assoc. reflexivity.
  - intros t1 c1 [E|E].
    + injection E as <- <-. right. rewrite app_assoc, last_snoc. auto.
    + apply (gd_cl _ G). apply in_app_iff. right. now right.
  - intros k1 t1 c1 k2 x E Hx. destruct k1 as [|q k1]; cbn [app] in E; injection E as E1 E2.
    + subst. rewrite !in_app_iff in Hx. pose proof (gd_nd _ G) as Nd. unfold qs in Nd. rewrite map_app in Nd. cbn [map fst] in Nd. destruct Hx as [Hx|[Hx|[<-|[]]]].
      * exact (gd_out _ G s1 t1 c k2 x eq_refl Hx).
      * apply in_flat in Hx. destruct Hx as ([t3 c3] & Q1 & Q2). cbn [fst snd] in Q2. destruct Q2 as [->|Q2].
        -- intros I. apply (NoDup_app_disj _ _ (nb t3) Nd); [apply in_map_iff; exists (t3, c3); auto|now right].
        -- apply in_split in Q1. destruct Q1 as (m1 & m2 & ->). intros I. refine (gd_out _ G m1 t3 c3 (m2 ++ (t1, c) :: k2) x _ Q2 _); [now rewrite <- app_assoc|]. unfold qs. rewrite map_app. apply in_app_iff. right. now right.
      * rewrite Eu. apply NoDup_app_r, NoDup_cons_iff in Nd. apply Nd.
    + subst. apply (gd_out _ G (s1 ++ (t, c) :: k1) t1 c1 k2 x); [rewrite <- app_assoc; reflexivity|auto].
  - intros k1 t1 c1 E. destruct k1 as [|q k1]; cbn [app] in E; injection E as E1 E2.
    + subst. destruct (gd_ty _ G s1 t1 c) as [Q1 Q2]; [reflexivity|]. split; [auto|]. intros x Hx. cbn [flat] in Hx. rewrite app_nil_r, !in_app_iff in Hx. destruct Hx as [Hx|[Hx|[<-|[]]]]; [apply Q2; apply in_app_iff; auto..|auto].
    + subst q. subst s2. destruct (gd_ty _ G (s1 ++ (t, c) :: k1) t1 c1) as [Q1 Q2]; [rewrite <- app_assoc; reflexivity|]. split; [auto|]. intros x Hx.
      assert (Kt : In t (c1 ++ flat (s1 ++ (t, c) :: k1))) by (rewrite flat_app; cbn [flat]; rewrite !in_app_iff; cbn [In]; auto). cbn [flat] in Hx. repeat (rewrite in_app_iff in Hx; cbn [In] in Hx).
      assert (K : forall y, In y (c1 ++ flat (s1 ++ (t, c) :: k1)) -> nb y = nb t1 \/ T0 (nb y) = 0) by exact Q2.
      rewrite flat_app in K. cbn [flat] in K. destruct Hx as [Hx|[Hx|[Hx|[Hx|[Hx|[Hx|[]]]]]]]; [apply K; repeat (rewrite in_app_iff; cbn [In]); auto 10..|]. subst x. rewrite Eu. apply Q2. exact Kt.
  - intros x Hx. cbn [flat] in Hx. rewrite !in_app_iff in Hx. cbn [In] in Hx. rewrite !in_app_iff in Hx. cbn [In] in Hx. assert (K := gd_arc _ G x). rewrite flat_app in K. cbn [flat] in K. rewrite !in_app_iff in K. cbn [In] in K. destruct Hx as [Hx|[Hx|[Hx|[Hx|[Hx|[]]]]]]; try (apply K; auto; fail). now subst x.
Qed.
Lemma good_push st u t c r : st = (t, c) :: r -> good st -> nb (twin u) = nb t -> ~ In (nb u) (qs st) -> In u (A (nb (twin u))) -> T0 (nb u) = 0 \/ is_RYW (T0 (nb u)) = true ->
  (T0 (nb u) = 0 -> good ((u, []) :: st)) /\ NoDup (qs ((u, []) :: st)) /\ (forall s1 t c t' c' s2, (u, []) :: st = s1 ++ (t, c) :: (t', c') :: s2 -> nb (twin t) = nb t').
Proof.
  intros E G Es Nu Au Hu. assert (S1 : forall s1 t c t' c' s2, (u, []) :: st = s1 ++ (t, c) :: (t', c') :: s2 -> nb (twin t) = nb t').
  { intros s1 t1 c1 t2 c2 s2 E2. destruct s1 as [|q s1]; cbn [app] in E2; [injection E2 as E3 E5 E4; subst t1; rewrite E in E4; injection E4 as <- _ _; auto|injection E2 as E3 E4; exact (gd_src _ G _ _ _ _ _ _ E4)]. }
  assert (Nd : NoDup (qs ((u, []) :: st))) by (cbn [qs map fst]; constructor; [exact Nu|apply G]). split; [|auto]. intros Z0. constructor; auto.
  - intros t1 c1 [E1|E1]; [injection E1 as <- <-; auto|exact (gd_cl _ G _ _ E1)].
  - intros s1 t1 c1 s2 x E1 Hx. destruct s1 as [|q s1]; cbn [app] in E1; [injection E1 as E2 E3 E4; subst c1; destruct Hx|injection E1 as E2 E3; exact (gd_out _ G _ _ _ _ _ E3 Hx)].
  - intros s1 t1 c1 E1. destruct s1 as [|q s1]; cbn [app] in E1; [injection E1 as E2 E3 E4; rewrite E in E4; discriminate|]. injection E1 as E2 E3. destruct (gd_ty _ G s1 t1 c1 E3) as [Q1 Q2]. split; [auto|]. intros x Hx. subst q. cbn [flat] in Hx. rewrite !in_app_iff in Hx. cbn [In] in Hx.
    destruct Hx as [Hx|[Hx|[<-|[]]]]; [apply Q2; apply in_app_iff; auto..|auto].
  - intros x Hx. cbn [flat] in Hx. apply in_app_iff in Hx. destruct Hx as [Hx|[<-|[]]]; [now apply G|auto].
Qed.
Lemma good_one u : is_RXW (T0 (nb u)) = true -> In u (A (nb (twin u))) -> good [(u, [])].
Proof.
  intros H Au. constructor.
  - constructor; [intros []|constructor].
  - intros s1 t c t' c' s2 E. destruct s1 as [|q [|q' s1]]; discriminate.
  - intros t c [E|[]]. injection E as <- <-. auto.
  - intros s1 t c s2 x E Hx. destruct s1 as [|q [|q' s1]]; [|discriminate..]. injection E as <- <- <-. destruct Hx.
  - intros s1 t c E. destruct s1 as [|q [|q' s1]]; [|discriminate..]. injection E as <- <-. split; [auto|]. intros x [].
  - intros x [<-|[]]. auto.
Qed.
Lemma removelast_cons2 (q : fr) r : r <> [] -> removelast (q :: r) = q :: removelast r.
Proof. destruct r; [congruence|reflexivity]. Qed.

(** What is returned: the stack with its last arc on top. *)
Record xyres (st : list fr) (T1 T2 : list Z) (cur : Z) (ts : list Z) : Prop := {
  xr_good : good st; xr_flat : T1 ++ flat st = T2 ++ [cur] }.
Definition hasRYW (ts : list Z) : Prop := exists t, In t ws /\ In t ts /\ is_RYW (T0 (nb t)) = true.
Lemma xy_walk ts : forall n Fv Fe st T1 pre cur t c r, ws = pre ++ cur :: ts -> pre ++ [cur] = T1 ++ flat st -> wch cur ts -> good st -> st = (t, c) :: r -> nb cur = nb t -> fl_ok Fv Fe st -> incl (flat st) ws -> In cur (A (nb (twin cur))) ->
  (exists u, In u ts /\ is_RYW (T0 (nb u)) = true) -> (forall x, In x ws -> T0 (nb x) = 0 \/ is_RXW (T0 (nb x)) = true \/ is_RYW (T0 (nb x)) = true) -> (length ts < n)%nat ->
  exists Fv' Fe' st' u T1' rest, xy_loop n (mk k Fv Fe (mst st)) W (Z.of_nat (length S0)) (nb cur) (twin cur) (px st) = Ret (mk k Fv' Fe' (mst ((u, []) :: st')), px st', nb u) /\
    ws = T1' ++ flat st' ++ u :: rest /\ good st' /\ st' <> [] /\ is_RYW (T0 (nb u)) = true /\ (forall x, Z.land (Fv' x) VERTEX_OBSTRUCTIONTYPE_MASK = T0 x) /\
    marked g0 F0 Fe' (u :: map fst (removelast st')) /\ NoDup (qs ((u, []) :: st')) /\ (forall s1 t c t' c' s2, (u, []) :: st' = s1 ++ (t, c) :: (t', c') :: s2 -> nb (twin t) = nb t').
Proof.
  induction ts as [|u ts IH]; intros n Fv Fe st T1 pre cur t c r Ew Ep Wc G Est Ecur Fl Inc Acur Hry Tys Hn; [destruct Hry as (u & [] & _)|].
  destruct n as [|n]; [cbn [length] in Hn; lia|]. cbn [xy_loop]. destruct Wc as [P Wc]. pose proof P as (P1 & P2 & P3). destruct (T _ _ Acur) as [_ Tc]. destruct (T _ _ P2) as [Q1 Q2].
  assert (Icur : In cur ws) by (rewrite Ew; apply in_app_iff; right; now left). assert (Iu : In u ws) by (rewrite Ew; apply in_app_iff; right; right; now left).
  assert (Vc : inV k (nb cur) = true) by exact (V_in k A C [] _ _ Tc). assert (Vu : inV k (nb u) = true) by exact (V_in k A C [] _ _ Q2).
  assert (Ic' : In (nb cur) (map nb ws)) by now apply in_map. assert (Iu' : In (nb u) (map nb ws)) by now apply in_map.
  assert (Ew' : ws = (pre ++ [cur]) ++ u :: ts) by (rewrite Ew, <- app_assoc; reflexivity).
  assert (Au : In u (A (nb (twin u)))) by (rewrite Q1; auto).
  assert (Lq : forall s, good s -> incl (flat s) ws -> (length s <= cp)%nat).
  { intros s Gs Is. rewrite <- (map_length (fun q : fr => nb (fst q)) s). apply Len; [apply (gd_nd _ Gs)|]. intros x Hx. apply in_map_iff in Hx. destruct Hx as (q & <- & Hq). apply in_map, Is. apply in_flat. exists q. auto. }
  pose proof (Lq st G Inc) as Lst.
  rewrite mk_type by auto. cbn [bind]. rewrite (fo_ty _ _ _ Fl).
  assert (TZ : is_RYW (T0 (nb cur)) = false).
  { destruct (list_snoc st) as [Q|(s1 & [t0 c0] & E0)]; [rewrite Q in Est; discriminate|]. destruct (gd_ty _ G s1 t0 c0 E0) as [R1 R2]. assert (Ec : nb cur = nb t0 \/ T0 (nb cur) = 0).
    { rewrite Ecur. destruct s1 as [|q s1]; [rewrite E0 in Est; injection Est as <- _ _; auto|]. apply R2. rewrite E0 in Est. injection Est as -> _. cbn [flat]. rewrite !in_app_iff. right. right. now left. }
    destruct Ec as [->| ->]; [|reflexivity]. unfold is_RXW, is_RYW, OBS_HIGH_RXW, OBS_LOW_RXW, OBS_HIGH_RYW, OBS_LOW_RYW in *. lia. }
  rewrite TZ. rewrite (prevc _ _ _ _ _ P). cbn [bind]. rewrite (mk_nbr k A C [] _ _ _ _ _ P2). cbn [bind]. change (gp_GetTwinArc u) with (twin u). rewrite mk_vis by auto. cbn [bind].
  destruct (Z.eq_dec (Z.land (Fv (nb u)) VERTEX_VISITED_MASK) 0) as [V0|V1].
  - rewrite V0. change (negb (0 =? 0)) with false. cbv iota. rewrite eqb_false_neq by (now apply RW). rewrite mk_type by auto. cbn [bind]. rewrite (fo_ty _ _ _ Fl).
    assert (Nu : ~ In (nb u) (qs st)) by (intros Q; apply (fo_vis _ _ _ Fl) in Q; auto).
    assert (SetT : forall F x, Z.land (upd F (nb u) (Z.lor (F (nb u)) VERTEX_VISITED_MASK) x) VERTEX_OBSTRUCTIONTYPE_MASK = Z.land (F x) VERTEX_OBSTRUCTIONTYPE_MASK) by (intros F x; unfold upd; destruct (Z.eqb_spec x (nb u)) as [->|Q]; [apply lor_other|auto]).
    assert (SetV : forall F x, Z.land (upd F (nb u) (Z.lor (F (nb u)) VERTEX_VISITED_MASK) x) VERTEX_VISITED_MASK <> 0 <-> x = nb u \/ Z.land (F x) VERTEX_VISITED_MASK <> 0) by (intros F x; unfold upd; destruct (Z.eqb_spec x (nb u)) as [->|Q]; [split; [auto|intros _; apply land1_lor]|tauto]).
    destruct (is_RXW (T0 (nb u))) eqn:Ex.
    + (* start again *)
      assert (Ey : is_RYW (T0 (nb u)) = false) by (unfold is_RXW, is_RYW, OBS_HIGH_RXW, OBS_LOW_RXW, OBS_HIGH_RYW, OBS_LOW_RYW in *; lia). rewrite Ey.
      unfold _PopAndUnmarkVerticesAndEdges. change (gstack (mk k Fv Fe (mst st))) with (mst st). assert (PO := pop_ok NIL [] (or_introl eq_refl) st Fv Fe (S (length (mst st)))). rewrite app_nil_r in PO. rewrite PO; clear PO.
      2:{ intros q Hq. apply G. apply in_flat. exists q. auto. } 2:{ intros Q. apply in_map_iff in Q. destruct Q as (q & Eq & Hq). assert (Aq : In (fst q) (A (nb (twin (fst q))))) by (apply G; apply in_flat; exists q; auto). destruct (T _ _ Aq) as [_ Tq]. pose proof (ch_isvertex _ _ _ _ C Tq) as Vq. unfold is_vertex, NIL in *. lia. }
      2:{ rewrite mst_len. lia. } 2:{ rewrite mst_len. lia. }
      cbn [bind]. rewrite (mk_push k []) by (rewrite mst_len; cbn [length]; lia). cbn [bind]. rewrite (mk_push k []) by (cbn [length]; rewrite mst_len; cbn [length]; lia). cbn [bind]. rewrite mk_set by auto. cbn [bind]. rewrite Z.eqb_refl. cbn [negb bind].
      change (nb u :: twin u :: mst []) with (mst [(u, [])]). change (nb u) with (px [(u, [])]) at 2.
      change (xy_loop n (mk k ?F ?E ?M) W ?b (nb u) (twin u) (nb u)) with (xy_loop n (mk k F E M) W b (nb u) (twin u) (px [(u, [])])).
      apply (IH n _ _ [(u, [])] (pre ++ [cur]) (pre ++ [cur]) u u [] []); [exact Ew'|reflexivity|exact Wc|now apply good_one|reflexivity|reflexivity| | |exact Au| |exact Tys|].
      * constructor.
        -- intros x Hx. rewrite SetV, clrV_vis. cbn [qs map In fst]. pose proof (fo_vis _ _ _ Fl x Hx). intuition.
        -- intros x. rewrite SetT, clrV_ty. now apply Fl.
        -- cbn [removelast map]. apply (clrE_marked st Fe (map fst (removelast st))); [apply Fl|]. intros x. cbn [In]. split; [tauto|]. intros [Q [Q3 Q4]]. assert (forall y, In y (map fst (removelast st)) -> In y (map fst st)).
           { intros y Hy. apply in_map_iff in Hy. destruct Hy as (q & <- & Hq). apply in_map. destruct (list_snoc st) as [->|(l & z & ->)]; [destruct Hq|]. rewrite removelast_last in Hq. apply in_app_iff. auto. } destruct Q; auto.
      * intros x [<-|[]]. auto.
      * destruct Hry as (u' & [<-|Hu'] & Ry'); [congruence|eauto].
      * cbn [length] in Hn. lia.
    + cbn [bind]. rewrite (mk_push k []) by (rewrite mst_len; lia). cbn [bind]. rewrite (mk_push k []) by (cbn [length]; rewrite mst_len; lia). cbn [bind]. rewrite mk_set by auto. cbn [bind].
      assert (Npx : nb u <> px st). { intros Q. apply Nu. rewrite Q. unfold px. apply in_map_iff. exists (last st (NIL, [])). split; [auto|]. destruct (list_snoc st) as [Q'|(l & z & ->)]; [rewrite Q' in Est; discriminate|]. rewrite last_snoc. apply in_app_iff. right. now left. }
      rewrite eqb_false_neq by auto. cbn [negb]. rewrite mk_eset by (exact (E_in k A C [] _ _ Q2)). cbn [bind]. change (gp_GetTwinArc (twin u)) with (twin (twin u)). rewrite mk_eset by (rewrite twin_invol; exact (E_in k A C [] _ _ P2)). cbn [bind].
      assert (MS : marked g0 F0 (upd (upd Fe (twin u) (Z.lor (Fe (twin u)) EDGE_VISITED_MASK)) (twin (twin u)) (Z.lor (upd Fe (twin u) (Z.lor (Fe (twin u)) EDGE_VISITED_MASK) (twin (twin u))) EDGE_VISITED_MASK)) (u :: map fst (removelast st))).
      { eapply marked_mem; [exact (marked_set g0 F0 _ _ (twin u) (fo_mk _ _ _ Fl))|]. intros x. cbn [In]. assert (X1 : u = twin x <-> twin u = x) by (split; [intros ->|intros <-]; now rewrite twin_invol). assert (X2 : twin u = twin x <-> u = x) by (split; [intros Q; now apply twin_inj|now intros ->]). rewrite X1, X2. tauto. }
      assert (Hu0 : T0 (nb u) = 0 \/ is_RYW (T0 (nb u)) = true) by (destruct (Tys u Iu) as [|[|]]; auto; congruence).
      destruct (good_push st u t c r Est G) as (GP & GN & GS); auto; [rewrite Q1; auto|]. change (nb u :: twin u :: mst st) with (mst ((u, []) :: st)).
      destruct (is_RYW (T0 (nb u))) eqn:Ey.
      * do 2 eexists. exists st, u, T1, ts. split; [reflexivity|]. split; [rewrite Ew', Ep, <- app_assoc; reflexivity|]. split; [auto|]. split; [rewrite Est; discriminate|]. split; [auto|]. split; [intros x; rewrite SetT; now apply Fl|]. split; [exact MS|]. split; [exact GN|exact GS].
      * assert (Z0 : T0 (nb u) = 0) by (destruct Hu0; [auto|congruence]). assert (Ep2 : px st = px ((u, []) :: st)) by (unfold px; rewrite Est; reflexivity). rewrite Ep2.
        apply (IH n _ _ ((u, []) :: st) T1 (pre ++ [cur]) u u [] st); auto.
        -- cbn [flat]. rewrite Ep, app_assoc. reflexivity.
        -- constructor.
           ++ intros x Hx. rewrite SetV. cbn [qs map In fst]. pose proof (fo_vis _ _ _ Fl x Hx) as Q. fold (qs st). intuition.
           ++ intros x. rewrite SetT. now apply Fl.
           ++ rewrite removelast_cons2 by (rewrite Est; discriminate). exact MS.
        -- intros x Hx. cbn [flat] in Hx. apply in_app_iff in Hx. destruct Hx as [Hx|[<-|[]]]; auto.
        -- destruct Hry as (u' & [<-|Hu'] & Ry'); [congruence|eauto].
        -- cbn [length] in Hn. lia.
  - replace (Z.land (Fv (nb u)) VERTEX_VISITED_MASK =? 0) with false by lia. cbn [negb]. apply (fo_vis _ _ _ Fl) in V1; [|auto]. apply in_map_iff in V1. destruct V1 as ([t1 c1] & E1 & I1). cbn [fst] in E1. apply in_split in I1. destruct I1 as (s1 & s2 & Es).
    pose proof (gd_nd _ G) as Nd. rewrite Es in Nd. unfold qs in Nd. rewrite map_app in Nd. cbn [map fst] in Nd.
    unfold _PopAndUnmarkVerticesAndEdges. change (gstack (mk k Fv Fe (mst st))) with (mst st). rewrite Es. rewrite (pop_ok (nb u) ((t1, c1) :: s2) (or_intror (ex_intro _ (t1, c1) (ex_intro _ s2 (conj eq_refl E1)))) s1).
    2:{ intros q Hq. apply G. apply in_flat. exists q. rewrite Es, in_app_iff. auto. } 2:{ rewrite <- E1. intros Q. apply (NoDup_app_disj _ _ (nb t1) Nd Q). now left. } 2:{ rewrite mst_len. assert (Q : length st = length (s1 ++ (t1, c1) :: s2)) by (now rewrite Es). lia. } 2:{ rewrite mst_len. clear. rewrite app_length. lia. }
    cbn [bind]. rewrite Es in G. pose proof (good_pop s1 t1 c1 s2 u G (eq_sym E1) Au) as G'. rewrite <- Es in G.
    assert (Ep2 : px (s1 ++ (t1, c1) :: s2) = px ((t1, c1 ++ flat s1 ++ [u]) :: s2)).
    { unfold px. destruct (list_snoc s2) as [->|(l & z & ->)]; [now rewrite last_snoc|]. change ((t1, c1 ++ flat s1 ++ [u]) :: l ++ [z]) with (((t1, c1 ++ flat s1 ++ [u]) :: l) ++ [z]). replace (s1 ++ (t1, c1) :: l ++ [z]) with ((s1 ++ (t1, c1) :: l) ++ [z]) by (rewrite <- app_assoc; reflexivity). now rewrite !last_snoc. }
    rewrite Ep2. change (mst ((t1, c1) :: s2)) with (mst ((t1, c1 ++ flat s1 ++ [u]) :: s2)).
    apply (IH n _ _ ((t1, c1 ++ flat s1 ++ [u]) :: s2) T1 (pre ++ [cur]) u t1 (c1 ++ flat s1 ++ [u]) s2); auto.
    + rewrite Ep, Es, flat_app. cbn [flat]. repeat (rewrite <- ?app_assoc; cbn [app]). reflexivity.
    + constructor.
      * intros x Hx. rewrite clrV_vis. rewrite (fo_vis _ _ _ Fl x Hx), Es. unfold qs. rewrite map_app, in_app_iff. cbn [map fst In]. split; [tauto|]. intros Q. split; [auto|]. intros Q'. apply (NoDup_app_disj _ _ x Nd Q'). exact Q.
      * intros x. rewrite clrV_ty. now apply Fl.
      * apply (clrE_marked s1 Fe (map fst (removelast st))); [apply Fl|]. rewrite Es, removelast_app by discriminate. intros x. rewrite map_app, !in_app_iff.
        assert (EQ : map fst (removelast ((t1, c1 ++ flat s1 ++ [u]) :: s2)) = map fst (removelast ((t1, c1) :: s2))) by (destruct s2; reflexivity). rewrite EQ.
        assert (Dj : forall y, In y (map fst (removelast ((t1, c1) :: s2))) -> ~ In y (map fst s1) /\ ~ In (twin y) (map fst s1)).
        { intros y Hy. apply in_map_iff in Hy. destruct Hy as ([y0 cy] & <- & Hy). cbn [fst]. destruct (list_snoc ((t1, c1) :: s2)) as [Q|(l & z & El)]; [discriminate|]. rewrite El, removelast_last in Hy. apply in_split in Hy. destruct Hy as (m1 & m2 & Em).
          assert (Ndq : NoDup (map (fun q : fr => nb (fst q)) (s1 ++ (m1 ++ (y0, cy) :: m2) ++ [z]))) by (rewrite <- Em, <- El; rewrite <- Es; apply G). rewrite map_app in Ndq. split; intros Q; apply in_map_iff in Q; destruct Q as ([y1 c2] & Ey & Hy); cbn [fst] in Ey.
          - subst y1. apply (NoDup_app_disj _ _ (nb y0) Ndq); [apply in_map_iff; exists (y0, c2); auto|]. rewrite !map_app, !in_app_iff. left. right. now left.
          - subst y1. destruct (m2 ++ [z]) as [|[z1 cz] m3] eqn:Em3; [destruct m2; discriminate|]. assert (Sy : nb (twin y0) = nb z1) by (apply (gd_src _ G (s1 ++ m1) y0 cy z1 cz m3); rewrite Es, El, Em; repeat (rewrite <- app_assoc; cbn [app]); rewrite Em3; reflexivity).
            apply (NoDup_app_disj _ _ (nb (twin y0)) Ndq); [apply in_map_iff; exists (twin y0, c2); auto|]. rewrite Sy. replace ((m1 ++ (y0, cy) :: m2) ++ [z]) with (m1 ++ (y0, cy) :: (z1, cz) :: m3) by (rewrite <- Em3, <- app_assoc; reflexivity). rewrite map_app, in_app_iff. right. right. now left. }
        split; [|tauto]. intros Q. split; [tauto|]. destruct Q as [Q|Q]; [now apply Dj|]. destruct (Dj _ Q) as [D1 D2]. rewrite twin_invol in D2. auto.
    + intros x Hx. cbn [flat] in Hx. apply in_app_iff in Hx. assert (Q : In x (flat st) \/ x = u). { rewrite Es, flat_app. cbn [flat]. cbn [In] in Hx. repeat (rewrite in_app_iff in *; cbn [In] in *). intuition. } destruct Q as [Q| ->]; auto.
    + destruct Hry as (u' & [<-|Hu'] & Ry'); [|eauto]. exfalso. destruct (list_snoc st) as [Q|(l0 & [t0 c0] & E0)]; [rewrite Q in Est; discriminate|]. destruct (gd_ty _ G l0 t0 c0 E0) as [R1 R2].
      assert (It1 : In t1 (flat st)) by (apply in_flat; exists (t1, c1); split; [rewrite Es; apply in_app_iff; right; now left|auto]). rewrite E0, flat_app in It1. cbn [flat app] in It1. rewrite <- E1 in Ry'. assert (Q : nb t1 = nb t0 \/ T0 (nb t1) = 0) by (destruct It1 as [<-|It1]; [auto|apply R2; exact It1]).
      unfold is_RXW, is_RYW, OBS_HIGH_RXW, OBS_LOW_RXW, OBS_HIGH_RYW, OBS_LOW_RYW in *. destruct Q as [Q|Q]; rewrite Q in Ry'; lia.
    + cbn [length] in Hn. lia.
Qed.
End W.
