(** * EmbP2: merging a root copy into its vertex. *)
From Coq Require Import ZifyBool Permutation.
From Verif Require Import Base BaseP GraphRec GraphM GraphSpec GSimp LinkP GraphP GraphP2 ListM DFSM TestM EmbM EmbSpec EmbP.

Lemma merge_loop_ok : forall l n g W p,
  linked (enext g) (eprev g) p l NIL -> NoDup l -> (forall e, In e l -> 2 <= e < gp_EdgeIndexBound g) ->
  Z.even (gCap g) = true -> (length l < n)%nat ->
  wp (merge_loop n g W (hd NIL l)) (fun h =>
    h = set_enbr g (enbr h) /\
    (forall x, enbr h x = if inb (twin x) l then W else enbr g x)).
Proof.
  induction l as [|e l IH]; intros n g W p L Nd Hr Hev Hn.
  - destruct n as [|n]; [cbn in Hn; lia|]. cbn [hd merge_loop]. change (NIL =? NIL) with true. cbv iota.
    cbn [wp]. split; [destruct g; reflexivity|]. intros; reflexivity.
  - destruct n as [|n]; [cbn in Hn; lia|]. cbn [hd merge_loop].
    destruct L as (Lp & Ln & L). apply NoDup_cons_iff in Nd. destruct Nd as [Ni Nd].
    pose proof (Hr e (or_introl eq_refl)) as Re.
    rewrite (eqb_false_neq e NIL) by (unfold NIL; lia).
    assert (Rt : 2 <= twin e < gp_EdgeIndexBound g).
    { split; [apply twin_ge_2; lia|]. apply twin_lt_even; [lia| |lia|lia].
      unfold gp_EdgeIndexBound. rewrite Z.even_add, Hev. reflexivity. }
    change (gp_GetTwinArc e) with (twin e).
    run. gsimp. rewrite Ln.
    eapply wp_mono; [apply (IH n _ W e)|].
    + gsimp. exact L.
    + exact Nd.
    + intros x Hx. apply Hr. now right.
    + gsimp. exact Hev.
    + cbn in Hn. lia.
    + intros h (E & En). cbn beta in *. gsimp_in E. gsimp_in En.
      split.
      * rewrite E. gsimp. reflexivity.
      * intros x. rewrite En. cbn [inb existsb]. fold (inb (twin x) l).
        destruct (Z.eqb_spec (twin x) e) as [Ex|Hx].
        -- cbn [orb]. destruct (inb_spec (twin x) l) as [H|_]; [reflexivity|].
           rewrite <- Ex, twin_invol, upd_same. reflexivity.
        -- cbn [orb]. rewrite upd_other; [reflexivity|]. intros ->. apply Hx. apply twin_invol.
Qed.

(** Replacing the successor of the last element, the predecessor of the first. *)
Lemma linked_set_last nx pv l x p q q' :
  linked nx pv p (l ++ [x]) q -> ~ In x l -> linked (upd nx x q') pv p (l ++ [x]) q'.
Proof.
  rewrite !linked_app. intros (L1 & L2 & _) Hx. split.
  - eapply linked_ext; [|exact L1]. intros e He. cbn beta. rewrite upd_other; [auto|]. intros ->. contradiction.
  - cbn [linked hd] in *. rewrite upd_same. destruct L2; auto.
Qed.
Lemma linked_set_first nx pv l x p p' q :
  linked nx pv p (x :: l) q -> ~ In x l -> linked nx (upd pv x p') p' (x :: l) q.
Proof.
  intros (L1 & L2 & L3) Hx. cbn [linked]. rewrite upd_same. split; [auto|]. split; [auto|].
  eapply linked_ext; [|exact L3]. intros e He. cbn beta. rewrite upd_other; [auto|]. intros ->. contradiction.
Qed.

(** What one merge does to the link fields. *)
Record merge_links (g h : graph) (W R : Z) (l1 l2 : list Z) : Prop := {
  ml_next : forall x, enext h x = if (x =? last l1 NIL) && negb (isnil l1) && negb (isnil l2) then hd NIL l2 else enext g x;
  ml_prev : forall x, eprev h x = if (x =? hd NIL l2) && negb (isnil l1) && negb (isnil l2) then last l1 NIL else eprev g x;
  ml_first : forall x, vfirst h x = if x =? R then NIL else if x =? W then hd NIL (l1 ++ l2) else vfirst g x;
  ml_last : forall x, vlast h x = if x =? R then NIL else if x =? W then last (l1 ++ l2) NIL else vlast g x }.

Lemma merge_links_chains g h adj W R l1 l2 :
  chains g adj -> is_vertex g W -> is_vertex g R -> W <> R ->
  gN h = gN g -> gCap h = gCap g ->
  (l1 = adj W /\ l2 = adj R \/ l1 = adj R /\ l2 = adj W) ->
  merge_links g h W R l1 l2 ->
  chains h (upd (upd adj R []) W (l1 ++ l2)).
Proof.
  intros C HW HR Hne HN Hcap Hl [Mn Mp Mf Ml].
  assert (Din : forall v e, In e (upd (upd adj R []) W (l1 ++ l2) v) ->
            (v = W /\ (In e (adj W) \/ In e (adj R))) \/ (v <> W /\ v <> R /\ In e (adj v))).
  { intros v e H. unfold upd in H. destruct (Z.eqb_spec v W) as [->|Hv].
    - left. split; auto. rewrite in_app_iff in H. destruct Hl as [[-> ->]|[-> ->]]; tauto.
    - destruct (Z.eqb_spec v R) as [->|Hv']; [destruct H|]. right. auto. }
  assert (D12 : forall e, In e l1 -> In e l2 -> False).
  { intros e H1 H2. destruct Hl as [[-> ->]|[-> ->]]; apply Hne;
      [exact (ch_disj _ _ C _ _ _ H1 H2)|exact (ch_disj _ _ C _ _ _ H2 H1)]. }
  assert (N12 : NoDup l1 /\ NoDup l2) by (destruct Hl as [[-> ->]|[-> ->]]; split; apply C).
  assert (L12 : linked (enext g) (eprev g) NIL l1 NIL /\ linked (enext g) (eprev g) NIL l2 NIL).
  { destruct Hl as [[-> ->]|[-> ->]]; split; apply C; auto. }
  assert (HNV : forall v, is_vertex h v <-> is_vertex g v) by (intros v; unfold is_vertex; rewrite HN; tauto).
  constructor.
  - intros v Hv. rewrite HNV in Hv. rewrite Mf. unfold upd. destruct (Z.eqb_spec v R) as [->|H1].
    + rewrite eqb_false_neq by auto. reflexivity.
    + destruct (Z.eqb_spec v W) as [->|H2]; [reflexivity|]. apply C; auto.
  - intros v Hv. rewrite HNV in Hv. rewrite Ml. unfold upd. destruct (Z.eqb_spec v R) as [->|H1].
    + rewrite eqb_false_neq by auto. reflexivity.
    + destruct (Z.eqb_spec v W) as [->|H2]; [reflexivity|]. apply C; auto.
  - intros v Hv. rewrite HNV in Hv. unfold upd. destruct (Z.eqb_spec v W) as [->|H1].
    + apply linked_app. destruct L12 as [L1 L2], N12 as [N1 N2].
      destruct (list_snoc l1) as [->|(l1' & t & E1)].
      * cbn [last linked]. split; [exact Logic.I|]. eapply linked_ext; [|exact L2].
        intros x Hx. rewrite Mn, Mp. cbn [isnil negb andb]. rewrite !andb_false_r. cbn [andb]. auto.
      * destruct l2 as [|f l2'] eqn:E2.
        -- cbn [hd linked]. split; [|exact Logic.I]. eapply linked_ext; [|exact L1].
           intros x Hx. rewrite Mn, Mp. cbn [isnil negb]. rewrite !andb_false_r. auto.
        -- assert (Hnil : isnil l1 = false) by (apply isnil_false; rewrite E1; destruct l1'; discriminate).
           rewrite Hnil in Mn, Mp. cbn [isnil negb hd] in Mn, Mp. cbn [hd].
           split.
           ++ rewrite E1 in L1 |- *. eapply linked_ext; [|apply (linked_set_last _ _ _ _ _ _ f L1)].
              ** intros x Hx. cbn beta. rewrite Mn, Mp, !andb_true_r. rewrite E1, last_snoc in *.
                 unfold upd. split; [reflexivity|]. destruct (Z.eqb_spec x f) as [->|]; [|reflexivity].
                 exfalso. eapply (D12 f); [exact Hx|now left].
              ** rewrite E1 in N1. apply NoDup_remove_2 in N1. now rewrite app_nil_r in N1.
           ++ apply NoDup_cons_iff in N2. destruct N2 as [Nf _].
              eapply linked_ext; [|apply (linked_set_first _ _ _ _ _ (last l1 NIL) _ L2 Nf)].
              intros x Hx. cbn beta. rewrite Mn, Mp, !andb_true_r. unfold upd. split; [|reflexivity].
              destruct (Z.eqb_spec x (last l1 NIL)) as [->|]; [|reflexivity].
              exfalso. apply (D12 (last l1 NIL)); [|exact Hx]. apply last_in. rewrite E1. destruct l1'; discriminate.
    + destruct (Z.eqb_spec v R) as [->|H2]; [exact Logic.I|].
      eapply linked_ext; [|apply (ch_linked _ _ C v Hv)].
      intros x Hx. assert (Hx1 : ~ In x l1 /\ ~ In x l2).
      { destruct Hl as [[-> ->]|[-> ->]]; split; intros Q; first [apply H1; exact (ch_disj _ _ C _ _ _ Hx Q)|apply H2; exact (ch_disj _ _ C _ _ _ Hx Q)]. }
      destruct Hx1 as [X1 X2]. rewrite Mn, Mp.
      destruct (list_snoc l1) as [->|(l1' & t & E1)]; [cbn [isnil negb andb]; rewrite !andb_false_r; auto|].
      destruct l2 as [|f l2'] eqn:E2; [cbn [isnil negb andb]; rewrite !andb_false_r; auto|].
      assert (x <> last l1 NIL).
      { intros ->. apply X1. apply last_in. rewrite E1. destruct l1'; discriminate. }
      assert (x <> f) by (intros ->; apply X2; now left).
      cbn [hd]. rewrite !eqb_false_neq by auto. auto.
  - intros v Hv. rewrite HNV in Hv. unfold upd. destruct (Z.eqb_spec v W) as [->|_]; [contradiction|].
    destruct (Z.eqb_spec v R); [reflexivity|]. apply C. exact Hv.
  - intros v. unfold upd. destruct (Z.eqb_spec v W) as [->|_].
    + apply NoDup_app_intro; [tauto|tauto|]. intros x. apply D12.
    + destruct (Z.eqb_spec v R); [constructor|apply C].
  - intros v w e H1 H2. apply Din in H1. apply Din in H2.
    destruct H1 as [[-> H1]|(Hv1 & Hv2 & H1)], H2 as [[-> H2]|(Hw1 & Hw2 & H2)]; auto.
    + exfalso. destruct H1 as [H1|H1]; [apply Hw1|apply Hw2]; exact (ch_disj _ _ C _ _ _ H2 H1).
    + exfalso. destruct H2 as [H2|H2]; [apply Hv1|apply Hv2]; exact (ch_disj _ _ C _ _ _ H1 H2).
    + exact (ch_disj _ _ C _ _ _ H1 H2).
  - intros v e H. apply Din in H. unfold gp_EdgeIndexBound in *. rewrite Hcap.
    destruct H as [[-> [H|H]]|(_ & _ & H)]; exact (ch_range _ _ C _ _ H).
Qed.

Lemma merge_state g adj W link R :
  chains g adj -> Z.even (gCap g) = true -> is_vertex g W -> is_vertex g R -> W <> R -> link_ok link -> adj R <> [] ->
  wp (_MergeVertex g W link R) (fun h => merged g h adj W link R /\
    exists l1 l2, (l1 = adj W /\ l2 = adj R \/ l1 = adj R /\ l2 = adj W) /\ merge_links g h W R l1 l2).
Proof.
  intros C Hev HW HR Hne Hl Hnil. unfold _MergeVertex. run.
  pose proof (ch_first _ _ C R HR) as FR. rewrite FR.
  apply wp_bind. eapply wp_mono.
  { apply (merge_loop_ok (adj R) _ g W NIL (ch_linked _ _ C R HR) (ch_nodup _ _ C R) (ch_range _ _ C R) Hev).
    apply adj_len_chains. exact C. }
  intros h (E & En). cbn beta in *. cbv zeta.
  assert (HN : gN h = gN g) by (rewrite E; reflexivity).
  assert (Hcap : gCap h = gCap g) by (rewrite E; reflexivity).
  assert (HWh : is_vertex h W) by (unfold is_vertex in *; lia).
  assert (HRh : is_vertex h R) by (unfold is_vertex in *; lia).
  assert (VF : vfirst h = vfirst g) by (rewrite E; reflexivity).
  assert (VL : vlast h = vlast g) by (rewrite E; reflexivity).
  assert (EN : enext h = enext g) by (rewrite E; reflexivity).
  assert (EP : eprev h = eprev g) by (rewrite E; reflexivity).
  pose proof (ch_first _ _ C W HW) as FW. pose proof (ch_last _ _ C W HW) as LW. pose proof (ch_last _ _ C R HR) as LR.
  assert (LRin : In (last (adj R) NIL) (adj R)) by (apply last_in; auto).
  assert (FRin : In (hd NIL (adj R)) (adj R)) by (apply hd_in; auto).
  pose proof (ch_range _ _ C _ _ LRin) as RlR. pose proof (ch_range _ _ C _ _ FRin) as RfR.
  assert (FRp : eprev g (hd NIL (adj R)) = NIL).
  { destruct (adj R) as [|f l] eqn:ER; [congruence|]. destruct (chains_links g adj R [] f l C ER) as [Q _]. exact Q. }
  assert (LRn : enext g (last (adj R) NIL) = NIL).
  { destruct (list_snoc (adj R)) as [ER|(l & t & ER)]; [congruence|]. destruct (chains_links g adj R l t [] C ER) as [_ Q].
    rewrite ER, last_snoc. exact Q. }
  unfold gp_EdgeIndexBound in *.
  assert (Fin : forall k l1 l2, k = set_vflags (set_vindex (set_vlast (set_vfirst (set_vlast (set_vfirst (set_eprev (set_enext h (enext k)) (eprev k)) (vfirst k)) (vlast k)) (vfirst k)) (vlast k)) (upd (vindex h) R NIL)) (upd (vflags h) R 0) ->
       (link = 1 /\ l1 = adj W /\ l2 = adj R \/ link = 0 /\ l1 = adj R /\ l2 = adj W) -> merge_links g k W R l1 l2 -> merged g k adj W link R /\
       exists l1 l2, (l1 = adj W /\ l2 = adj R \/ l1 = adj R /\ l2 = adj W) /\ merge_links g k W R l1 l2).
  { intros k l1 l2 Ek H12 M.
    assert (Nk : gN k = gN g) by (rewrite Ek, E; reflexivity). assert (Ck : gCap k = gCap g) by (rewrite Ek, E; reflexivity).
    assert (X : chains k (upd (upd adj R []) W (l1 ++ l2))).
    { apply (merge_links_chains g k adj W R l1 l2 C HW HR Hne Nk Ck); [|exact M]. tauto. }
    split; [|exists l1, l2; split; [tauto|exact M]]. constructor.
    - constructor; rewrite Ek, E; reflexivity.
    - unfold merged_lists. destruct H12 as [(-> & -> & ->)|(-> & -> & ->)]; exact X.
    - intros e He. assert (Q : enbr k (twin e) = enbr h (twin e)) by (rewrite Ek; reflexivity). rewrite Q, En, twin_invol.
      destruct (inb_spec e (adj R)); [reflexivity|contradiction].
    - intros e He. assert (Q : enbr k e = enbr h e) by (rewrite Ek; reflexivity). rewrite Q, En.
      destruct (inb_spec (twin e) (adj R)); [contradiction|reflexivity].
    - intros v Hv. rewrite Ek, E. gsimp. apply upd_other. auto.
    - rewrite Ek. gsimp. apply upd_same.
    - intros v Hv. rewrite Ek, E. gsimp. apply upd_other. auto.
    - rewrite Ek. gsimp. apply upd_same.
    - rewrite Ek, E. reflexivity.
    - rewrite Ek, E. reflexivity. }
  unfold _InitVertexRec, gp_SetVertexIndex.
  destruct Hl as [->| ->]; match goal with |- wp _ ?Q => set (Post := Q) end.
  - change (Z.lxor 1 0) with 1. run. rewrite VF, VL, FW, LR, FR.
    destruct (adj W) as [|fw lw] eqn:EW.
    + cbn [hd]. change (NIL =? NIL) with true. cbn [negb].
      run. gsimp. run. gsimp. run. gsimp. run. gsimp. run. rewrite (inV_true _ R) by bnd. gsimp. run. gsimp.
      eapply (Fin _ (adj R) []); [gsimp; rewrite ?VF, ?VL, ?EN, ?EP; reflexivity|right; auto|].
      constructor; gsimp; intros x; cbn [isnil negb]; rewrite ?andb_false_r, ?app_nil_r, ?EN, ?EP, ?VF, ?VL; unfold upd.
      * destruct (Z.eqb_spec x (last (adj R) NIL)) as [->|]; auto.
      * destruct (Z.eqb_spec x (hd NIL (adj R))) as [->|]; auto.
      * eqbs; auto.
      * eqbs; auto.
    + assert (Hin : In fw (adj W)) by (rewrite EW; now left). pose proof (ch_range _ _ C _ _ Hin) as Rf.
      unfold gp_EdgeIndexBound in *.
      cbn [hd]. rewrite (eqb_false_neq fw NIL) by (unfold NIL; lia). cbn [negb].
      run. gsimp. run. gsimp. run. gsimp. run. gsimp. run. rewrite (inV_true _ R) by bnd. gsimp. run. gsimp.
      eapply (Fin _ (adj R) (fw :: lw)); [gsimp; rewrite ?VF, ?VL, ?EN, ?EP; reflexivity|right; auto|].
      assert (fw <> hd NIL (adj R)).
      { intros ->. apply Hne. exact (ch_disj _ _ C _ _ _ Hin FRin). }
      constructor; gsimp; intros x; rewrite ?(isnil_false (adj R)) by auto; cbn [isnil negb hd]; rewrite ?andb_true_r, ?EN, ?EP, ?VF, ?VL; unfold upd.
      * reflexivity.
      * destruct (Z.eqb_spec x (hd NIL (adj R))) as [->|]; [rewrite eqb_false_neq by auto; auto|reflexivity].
      * rewrite hd_app by auto. reflexivity.
      * destruct (Z.eqb_spec x R) as [->|]; [reflexivity|]. destruct (Z.eqb_spec x W) as [->|]; [|reflexivity].
        rewrite last_app_ne by discriminate. rewrite LW. reflexivity.
  - change (Z.lxor 1 1) with 0. run. rewrite VF, VL, LW, LR, FR.
    destruct (list_snoc (adj W)) as [EW|(lw & tw & EW)].
    + rewrite EW. cbn [last]. change (NIL =? NIL) with true. cbn [negb].
      run. gsimp. run. gsimp. run. gsimp. run. gsimp. run. rewrite (inV_true _ R) by bnd. gsimp. run. gsimp.
      eapply (Fin _ [] (adj R)); [gsimp; rewrite ?VF, ?VL, ?EN, ?EP; reflexivity|left; auto|].
      constructor; gsimp; intros x; cbn [isnil negb app]; rewrite ?andb_false_r, ?EN, ?EP, ?VF, ?VL; cbn [andb]; unfold upd.
      * destruct (Z.eqb_spec x (last (adj R) NIL)) as [->|]; auto.
      * destruct (Z.eqb_spec x (hd NIL (adj R))) as [->|]; auto.
      * eqbs; auto.
      * eqbs; auto.
    + assert (Hin : In tw (adj W)) by (rewrite EW, in_app_iff; right; now left). pose proof (ch_range _ _ C _ _ Hin) as Rf.
      unfold gp_EdgeIndexBound in *.
      rewrite EW, last_snoc. rewrite (eqb_false_neq tw NIL) by (unfold NIL; lia). cbn [negb].
      run. gsimp. run. gsimp. run. gsimp. run. gsimp. run. rewrite (inV_true _ R) by bnd. gsimp. run. gsimp.
      eapply (Fin _ (adj W) (adj R)); [gsimp; rewrite ?VF, ?VL, ?EN, ?EP; reflexivity|left; auto|].
      assert (tw <> last (adj R) NIL).
      { intros Q. apply Hne. rewrite Q in Hin. exact (ch_disj _ _ C _ _ _ Hin LRin). }
      assert (Hwn : adj W <> []) by (rewrite EW; destruct lw; discriminate).
      assert (Hwl : last (adj W) NIL = tw) by (rewrite EW; apply last_snoc).
      constructor; gsimp; intros x; rewrite ?(isnil_false (adj R)), ?(isnil_false (adj W)) by auto; cbn [isnil negb]; rewrite ?andb_true_r, ?EN, ?EP, ?VF, ?VL, ?Hwl; unfold upd.
      * destruct (Z.eqb_spec x (last (adj R) NIL)) as [->|]; [rewrite eqb_false_neq by auto; auto|reflexivity].
      * reflexivity.
      * destruct (Z.eqb_spec x R) as [->|]; [reflexivity|]. destruct (Z.eqb_spec x W) as [->|]; [|reflexivity].
        rewrite hd_app by auto. exact FW.
      * rewrite last_app_ne by auto. reflexivity.
Qed.
Lemma merge_ok g adj W link R :
  chains g adj -> Z.even (gCap g) = true -> is_vertex g W -> is_vertex g R -> W <> R -> link_ok link -> adj R <> [] ->
  wp (_MergeVertex g W link R) (fun h => merged g h adj W link R).
Proof. intros. eapply wp_mono; [apply merge_state; eassumption|]. intros h [H' _]. exact H'. Qed.
