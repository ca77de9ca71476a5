(** * IOP5: reading one line of an adjacency list. *)
From Coq Require Import ZifyBool Permutation.
From Verif Require Import Base BaseP GraphRec GraphM GraphSpec GSimp LinkP GraphP GraphP2 GraphP3 GraphP4 GraphP5 EmbP
  G6P StrBufM DrawM IOP IOP2 IOP3 IOP4 IOM.

Record lists_ok (n : Z) (L : Z -> list Z) : Prop := {
  lo_range : forall v w, In w (L v) -> 1 <= v <= n /\ 1 <= w <= n;
  lo_nodup : forall v, NoDup (L v);
  lo_sym : forall v w, In w (L v) -> In v (L w);
  lo_loop : forall v, ~ In v (L v) }.

(** Distinct pairs are at most n(n-1)/2. *)
Lemma pairs_bound n (P : list (Z * Z)) : 0 <= n -> NoDup P -> (forall x y, In (x, y) P -> 1 <= x < y /\ y <= n) ->
  2 * Z.of_nat (length P) <= n * (n - 1).
Proof.
  intros Hn ND HP. rewrite <- tri2. pose proof (tri_nonneg n Hn) as T0.
  assert (length (map (fun p => pidx (fst p) (snd p)) P) <= length (zrange 0 (Z.to_nat (tri n))))%nat.
  { apply NoDup_incl_length.
    - clear Hn T0. induction P as [|[x y] P IH]; cbn [map]; constructor.
      + inversion ND as [|a b N1 N2]; subst a b. rewrite in_map_iff. intros ([x' y'] & E & H). cbn [fst snd] in E.
        destruct (HP x y (or_introl eq_refl)). destruct (HP x' y' (or_intror H)).
        destruct (pidx_inj x' y' x y) as [-> ->]; auto.
      + inversion ND; subst. apply IH; auto. intros a b H. apply HP. right. exact H.
    - intros k Hk. rewrite in_map_iff in Hk. destruct Hk as ([x y] & <- & H). cbn [fst snd].
      destruct (HP x y H) as [H1 H2]. apply in_zrange.
      assert (0 <= pidx x y < tri n).
      { unfold pidx. pose proof (tri_lt (y - 1) (x - 1) n). pose proof (tri_nonneg (y - 1)). lia. }
      lia. }
  rewrite map_length, zrange_length in H. lia.
Qed.

Section Lists.
Variables (n C : Z) (L : Z -> list Z).
Hypothesis HL : lists_ok n L.
Hypothesis HnC : n * (n - 1) <= C.
Hypothesis HCI : 2 * C <= INT_MAX.
Hypothesis Hn : 1 <= n <= INT_MAX.

(** The state after the neighbours p of v have been read. *)
Record inv (v : Z) (p : list Z) (g : graph) (adj : Z -> list Z) (D : list Z) : Prop := {
  iv_mid : mid n C g adj v D;
  iv_low : forall u, 1 <= u < v -> map (enbr g) (adj u) = L u;
  iv_cur : map (enbr g) (adj v) = rev p;
  iv_D : forall e, In e D -> 1 <= enbr g e < v /\ In v (L (enbr g e)) /\ ~ In (enbr g e) p;
  iv_Dall : forall u, 1 <= u < v -> In v (L u) -> ~ In u p -> exists e, In e D /\ enbr g e = u;
  iv_up : forall w, v < w <= n -> NoDup (map (enbr g) (adj w)) /\
            forall u, In u (map (enbr g) (adj w)) <-> (1 <= u < v /\ In w (L u)) \/ (u = v /\ In w p);
  iv_out : forall w, n < w -> adj w = [];
  iv_vis : forall e, In e D -> viVisited (gVI g) (enbr g e) = e;
  iv_novis : forall u, 1 <= u <= n -> (forall e, In e D -> enbr g e <> u) -> viVisited (gVI g) u = NIL;
  iv_pairs : exists P, NoDup P /\ Z.of_nat (length P) = gM g /\
            forall x y, In (x, y) P -> 1 <= x < y /\ y <= n /\ (x < v \/ x = v /\ In y p) }.

Lemma inv_old v p g adj D w e : inv v p g adj D -> owned adj v D w e -> 2 <= e < 2 + 2 * gM g.
Proof. intros I H. apply (md_own _ _ _ _ _ _ (iv_mid _ _ _ _ _ I) _ _ H). Qed.

Lemma step_up v p q W g adj D :
  1 <= v <= n -> rev (L v) = p ++ W :: q -> v < W -> inv v p g adj D ->
  exists g' adj', gp_DynamicAddEdge g v 0 W 0 = Ret (g', C_OK) /\ inv v (p ++ [W]) g' adj' D /\ giflags g' = giflags g /\ gN g' = gN g.
Proof.
  intros Hv Ep HvW I.
  assert (IW : In W (L v)) by (apply in_rev; rewrite Ep, in_app_iff; right; left; reflexivity).
  destruct (lo_range _ _ HL _ _ IW) as [_ RW].
  assert (NWp : ~ In W p).
  { pose proof (lo_nodup _ _ HL v) as ND. apply NoDup_rev in ND. rewrite Ep in ND. apply NoDup_remove_2 in ND.
    rewrite in_app_iff in ND. tauto. }
  destruct (iv_pairs _ _ _ _ _ I) as (P & P1 & P2 & P3).
  assert (NP : NoDup ((v, W) :: P)).
  { constructor; auto. intros H. destruct (P3 _ _ H) as (_ & _ & [H1|[_ H1]]); [lia|auto]. }
  assert (HM : 2 * gM g < n * (n - 1)).
  { pose proof (pairs_bound n ((v, W) :: P) ltac:(lia) NP) as K. cbn [length] in K.
    assert (2 * Z.of_nat (S (length P)) <= n * (n - 1)); [|lia]. apply K.
    intros x y [E|H]; [injection E as <- <-; lia|]. destruct (P3 _ _ H) as (H1 & H2 & _). auto. }
  destruct (dyn_mid n C g adj v D v W (iv_mid _ _ _ _ _ I) HnC HCI Hv RW ltac:(lia) HM) as (g' & E & M' & EA).
  cbv zeta in M'. set (a := 2 * gM g + 3) in *. set (adj' := upd (upd adj v (a :: adj v)) W (twin a :: adj W)) in *.
  assert (Old : forall w e, owned adj v D w e -> enbr g' e = enbr g e).
  { intros w e H. apply (ea_old _ _ _ _ _ EA). eapply inv_old; eauto. }
  assert (OldM : forall w, map (enbr g') (adj w) = map (enbr g) (adj w)).
  { intros w. apply map_ext_in. intros e He. eapply Old. left. exact He. }
  assert (OldD : forall e, In e D -> enbr g' e = enbr g e).
  { intros e He. apply (Old v). right. auto. }
  assert (Aw : forall w, w <> v -> w <> W -> adj' w = adj w) by (intros w H1 H2; unfold adj'; rewrite !upd_other by auto; reflexivity).
  assert (Av : adj' v = a :: adj v) by (unfold adj'; rewrite upd_other by lia; apply upd_same).
  assert (AW : adj' W = twin a :: adj W) by (unfold adj'; apply upd_same).
  exists g', adj'. split; [exact E|]. split; [|split; [apply EA|rewrite (md_N _ _ _ _ _ _ M'), (md_N _ _ _ _ _ _ (iv_mid _ _ _ _ _ I)); reflexivity]].
  constructor.
  - exact M'.
  - intros u Hu. rewrite Aw by lia. rewrite OldM. apply (iv_low _ _ _ _ _ I). exact Hu.
  - rewrite Av. cbn [map]. rewrite OldM, (iv_cur _ _ _ _ _ I), (ea_a _ _ _ _ _ EA), rev_app_distr. reflexivity.
  - intros e He. rewrite (OldD _ He). destruct (iv_D _ _ _ _ _ I e He) as (H1 & H2 & H3). split; [exact H1|]. split; [exact H2|].
    rewrite in_app_iff. cbn [In]. intros [H|[H|[]]]; [auto|lia].
  - intros u Hu HuL Hp. destruct (iv_Dall _ _ _ _ _ I u Hu HuL) as (e & H1 & H2); [rewrite in_app_iff in Hp; tauto|].
    exists e. split; [exact H1|]. rewrite OldD by exact H1. exact H2.
  - intros w Hw. destruct (iv_up _ _ _ _ _ I w Hw) as [U1 U2]. destruct (Z.eq_dec w W) as [->|NW].
    + rewrite AW. cbn [map]. rewrite OldM, (ea_ta _ _ _ _ _ EA). split.
      * constructor; [|exact U1]. rewrite U2. intros [H|[_ H]]; [lia|auto].
      * intros u. cbn [In]. rewrite U2, in_app_iff. cbn [In]. split.
        -- intros [<-|[H|[H1 H2]]]; auto.
        -- intros [H|[H1 H2]]; auto.
    + rewrite Aw by lia. rewrite OldM. split; [exact U1|]. intros u. rewrite U2, in_app_iff. cbn [In]. split.
      * intros [H|[H1 H2]]; auto.
      * intros [H|[H1 [H2|[H2|[]]]]]; auto. congruence.
  - intros w Hw. rewrite Aw by lia. apply (iv_out _ _ _ _ _ I). exact Hw.
  - intros e He. rewrite (ea_VI _ _ _ _ _ EA), (OldD _ He). apply (iv_vis _ _ _ _ _ I). exact He.
  - intros u Hu HN. rewrite (ea_VI _ _ _ _ _ EA). apply (iv_novis _ _ _ _ _ I); [exact Hu|]. intros e He. rewrite <- (OldD _ He). auto.
  - exists ((v, W) :: P). split; [exact NP|]. split; [cbn [length]; rewrite (ea_M _ _ _ _ _ EA); lia|].
    intros x y [H|H].
    + injection H as <- <-. split; [lia|]. split; [lia|]. right. split; [reflexivity|]. rewrite in_app_iff. right. left. reflexivity.
    + destruct (P3 _ _ H) as (H1 & H2 & H3). split; [exact H1|]. split; [exact H2|]. rewrite in_app_iff. tauto.
Qed.

Lemma step_down v p q W g adj D :
  1 <= v <= n -> rev (L v) = p ++ W :: q -> W < v -> inv v p g adj D ->
  viVisited (gVI g) W <> NIL /\
  exists g' adj' D', pull_arc g v W (hd NIL D) = Ret (g', hd NIL D') /\ inv v (p ++ [W]) g' adj' D' /\ giflags g' = giflags g /\ gN g' = gN g.
Proof.
  intros Hv Ep HvW I.
  assert (IW : In W (L v)) by (apply in_rev; rewrite Ep, in_app_iff; right; left; reflexivity).
  destruct (lo_range _ _ HL _ _ IW) as [_ RW]. pose proof (lo_sym _ _ HL _ _ IW) as IV.
  assert (NWp : ~ In W p).
  { pose proof (lo_nodup _ _ HL v) as ND. apply NoDup_rev in ND. rewrite Ep in ND. apply NoDup_remove_2 in ND.
    rewrite in_app_iff in ND. tauto. }
  destruct (iv_Dall _ _ _ _ _ I W ltac:(lia) IV NWp) as (e & He & EW).
  pose proof (iv_vis _ _ _ _ _ I e He) as EV. rewrite EW in EV.
  pose proof (iv_mid _ _ _ _ _ I) as M.
  assert (Re : 2 <= e) by (pose proof (inv_old _ _ _ _ _ v e I (or_intror (conj eq_refl He))); lia).
  split; [rewrite EV; unfold NIL; lia|].
  apply in_split in He. destruct He as (D1 & D2 & ->).
  assert (Vv : is_vertex g v) by (unfold is_vertex; rewrite (md_N _ _ _ _ _ _ M); lia).
  destruct (pull_ok n C g adj v D1 e D2 W M Vv RW EV) as (g' & E & M' & EN & EM & EI & EVi).
  pose proof (md_nodup _ _ _ _ _ _ M) as ND.
  assert (Sub : forall x, In x (D1 ++ D2) -> In x (D1 ++ e :: D2)) by (intros x; rewrite !in_app_iff; cbn [In]; tauto).
  assert (NW : forall x, In x (D1 ++ D2) -> enbr g x <> W).
  { intros x Hx Ex. pose proof (iv_vis _ _ _ _ _ I x (Sub _ Hx)) as Vx. rewrite Ex, EV in Vx. subst x.
    apply NoDup_remove_2 in ND. auto. }
  assert (Av : upd adj v (e :: adj v) v = e :: adj v) by apply upd_same.
  exists g', (upd adj v (e :: adj v)), (D1 ++ D2). split; [exact E|].
  split; [|split; [exact EI|rewrite (md_N _ _ _ _ _ _ M'), (md_N _ _ _ _ _ _ M); reflexivity]].
  constructor.
  - exact M'.
  - intros u Hu. rewrite upd_other by lia. rewrite EN. apply (iv_low _ _ _ _ _ I). exact Hu.
  - rewrite Av, EN. cbn [map]. rewrite (iv_cur _ _ _ _ _ I), EW, rev_app_distr. reflexivity.
  - intros x Hx. rewrite EN. destruct (iv_D _ _ _ _ _ I x (Sub _ Hx)) as (H1 & H2 & H3). split; [exact H1|]. split; [exact H2|].
    rewrite in_app_iff. cbn [In]. intros [H|[H|[]]]; [auto|]. exact (NW x Hx (eq_sym H)).
  - intros u Hu HuL Hp. rewrite in_app_iff in Hp. cbn [In] in Hp.
    destruct (iv_Dall _ _ _ _ _ I u Hu HuL) as (x & H1 & H2); [tauto|]. exists x. rewrite EN. split; [|exact H2].
    rewrite in_app_iff in *. cbn [In] in H1. destruct H1 as [H1|[<-|H1]]; auto. exfalso. apply Hp. right. left. congruence.
  - intros w Hw. rewrite upd_other by lia. rewrite EN. destruct (iv_up _ _ _ _ _ I w Hw) as [U1 U2]. split; [exact U1|].
    intros u. rewrite U2, in_app_iff. cbn [In]. split; [tauto|]. intros [H|[H1 [H2|[H2|[]]]]]; auto. lia.
  - intros w Hw. rewrite upd_other by lia. apply (iv_out _ _ _ _ _ I). exact Hw.
  - intros x Hx. rewrite EN, EVi. rewrite upd_other by (apply NW; exact Hx). apply (iv_vis _ _ _ _ _ I). auto.
  - intros u Hu HN. rewrite EVi. unfold upd. destruct (Z.eqb_spec u W) as [->|Nu]; [reflexivity|]. apply (iv_novis _ _ _ _ _ I); [exact Hu|].
    intros x Hx. rewrite in_app_iff in Hx. cbn [In] in Hx. destruct Hx as [Hx|[<-|Hx]].
    + rewrite <- EN. apply HN. rewrite in_app_iff. auto.
    + congruence.
    + rewrite <- EN. apply HN. rewrite in_app_iff. auto.
  - destruct (iv_pairs _ _ _ _ _ I) as (P & P1 & P2 & P3). exists P. split; [exact P1|]. split; [rewrite EM; exact P2|].
    intros x y H. destruct (P3 _ _ H) as (H1 & H2 & H3). split; [exact H1|]. split; [exact H2|]. rewrite in_app_iff. tauto.
Qed.

(** ** The text of a line after the colon and the space *)
Fixpoint body (off : Z) (q rest : list Z) : list Z :=
  match q with
  | [] => dec (- off) ++ 10 :: rest
  | w :: q' => dec (w - off) ++ 32 :: body off q' rest
  end.

Lemma dec_not_space x s : 0 <= x <= INT_MAX -> skip_ws (dec x ++ s) = dec x ++ s.
Proof.
  intros Hx. destruct (dec_val x Hx) as (ds & E1 & E2 & E3 & _). rewrite E1. apply skip_ws_digits; auto.
Qed.

Definition off_ok (off : Z) : Prop := off = 0 \/ off = 1.

Lemma body_not_space off q rest : off_ok off -> (forall w, In w q -> 1 <= w <= n) -> skip_ws (32 :: body off q rest) = body off q rest.
Proof.
  intros Ho Hq. rewrite skip_ws_space. destruct q as [|w q]; cbn [body].
  - destruct Ho as [->| ->]; reflexivity.
  - pose proof (Hq w (or_introl eq_refl)). apply dec_not_space. destruct Ho as [->| ->]; lia.
Qed.

Lemma read_list_ok k off v rest : off_ok off -> 1 <= v <= n -> (skip_ws (10 :: rest) = rest) ->
  forall q p g adj D W sp fuel, rev (L v) = p ++ q -> inv v p g adj D -> sp = [] \/ sp = [32] -> (length q < fuel)%nat ->
  exists g' adj' D', read_list fuel off v g (hd NIL D) W (mk k (sp ++ body off q rest)) =
      Ret (g', hd NIL D', Some 0, mk k rest, None) /\ inv v (rev (L v)) g' adj' D' /\ giflags g' = giflags g.
Proof.
  intros Ho Hv Hrest. induction q as [|w q IH]; intros p g adj D W sp fuel Ep I Hsp Hf; (destruct fuel as [|fuel]; [cbn [length] in Hf; lia|]).
  - cbn [body read_list].
    assert (E : read_int false true true true W (mk k (sp ++ dec (- off) ++ 10 :: rest)) = Ret (Some (- off), mk k rest)).
    { destruct Ho as [->| ->].
      - destruct Hsp as [->| ->].
        + change ([] ++ dec (- 0) ++ 10 :: rest) with (dec 0 ++ 10 :: rest). rewrite read_nat by (cbn; unfold INT_MAX; try lia; reflexivity).
          destruct k; cbn [mk]; rewrite Hrest; reflexivity.
        + change ([32] ++ dec (- 0) ++ 10 :: rest) with (32 :: dec 0 ++ 10 :: rest). rewrite read_sp_nat by (cbn; unfold INT_MAX; try lia; reflexivity).
          destruct k; cbn [mk]; rewrite Hrest; reflexivity.
      - change (- (1)) with (-1). rewrite read_minus_one by (auto; reflexivity). destruct k; cbn [mk]; rewrite Hrest; reflexivity. }
    rewrite E, bind_ret. cbv beta iota. cbn [use bind]. unfold iadd. replace (- off + off) with 0 by lia.
    change (int_ok 0) with true. cbn [guard bind]. change (0 <? 1) with true. cbv iota.
    rewrite app_nil_r in Ep. exists g, adj, D. split; [reflexivity|]. rewrite Ep. auto.
  - cbn [body read_list].
    assert (IW : In w (L v)) by (apply in_rev; rewrite Ep, in_app_iff; right; left; reflexivity).
    destruct (lo_range _ _ HL _ _ IW) as [_ RW].
    assert (Hq : forall x, In x q -> 1 <= x <= n).
    { intros x Hx. assert (In x (L v)) by (apply in_rev; rewrite Ep, in_app_iff; right; right; exact Hx). apply (lo_range _ _ HL v x H). }
    assert (E : read_int false true true true W (mk k (sp ++ dec (w - off) ++ 32 :: body off q rest)) = Ret (Some (w - off), mk k (body off q rest))).
    { assert (0 <= w - off <= INT_MAX) by (destruct Ho; lia).
      destruct Hsp as [->| ->]; cbn [app]; [rewrite read_nat by (auto; reflexivity)|rewrite read_sp_nat by (auto; reflexivity)];
        rewrite body_not_space by auto; destruct k; reflexivity. }
    rewrite E, bind_ret. cbv beta iota. cbn [use bind]. unfold iadd. replace (w - off + off) with w by lia.
    replace (int_ok w) with true by (unfold int_ok, INT_MAX in *; lia). cbn [guard bind].
    pose proof (md_N _ _ _ _ _ _ (iv_mid _ _ _ _ _ I)) as EN.
    replace (w <? 1) with false by lia. rewrite EN. replace (n <? w) with false by lia.
    assert (w <> v) by (intros ->; exact (lo_loop _ _ HL _ IW)). replace (w =? v) with false by lia.
    assert (Ep' : rev (L v) = (p ++ [w]) ++ q) by (rewrite <- app_assoc; exact Ep).
    change (body off q rest) with ([] ++ body off q rest).
    destruct (v <? w) eqn:Lt.
    + destruct (step_up v p q w g adj D Hv Ep ltac:(lia) I) as (g1 & adj1 & E1 & I1 & F1 & _). rewrite E1, bind_ret. cbv beta iota.
      cbn [C_OK Z.eqb Pos.eqb negb].
      destruct (IH (p ++ [w]) g1 adj1 D (Some w) [] fuel Ep' I1 (or_introl eq_refl) ltac:(cbn [length] in Hf; lia)) as (g2 & adj2 & D2 & E2 & I2 & F2).
      rewrite E2. exists g2, adj2, D2. split; [reflexivity|]. split; [exact I2|congruence].
    + destruct (step_down v p q w g adj D Hv Ep ltac:(lia) I) as (HV & g1 & adj1 & D1 & E1 & I1 & F1 & _).
      unfold gp_GetVertexVisitedInfo, rd_vi. rewrite guard_true by (unfold inVI, gp_PrimaryVertexIndexBound; lia). rewrite bind_ret.
      replace (viVisited (gVI g) w =? NIL) with false by lia. cbn [negb]. rewrite E1, bind_ret. cbv beta iota.
      destruct (IH (p ++ [w]) g1 adj1 D1 (Some w) [] fuel Ep' I1 (or_introl eq_refl) ltac:(cbn [length] in Hf; lia)) as (g2 & adj2 & D2 & E2 & I2 & F2).
      rewrite E2. exists g2, adj2, D2. split; [reflexivity|]. split; [exact I2|congruence].
Qed.
End Lists.
