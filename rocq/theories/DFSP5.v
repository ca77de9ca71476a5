(** * DFSP5: lowpoints and least ancestors. *)
From Verif Require Import Base BaseP GraphRec GraphM GraphSpec GSimp LinkP GraphP GraphP5 DFSM DFSSpec DFSP DFSP2.

(** The graph with a given stack, vertex flags, least ancestors and lowpoints. *)
Definition lst (g : graph) (st : list Z) (vf la lo : Z -> Z) : graph :=
  set_gVI (set_vflags (set_gstack g st) vf) (set_viLow (set_viLeast (gVI g) la) lo).
Definition vis (vf : Z -> Z) (v : Z) : bool := negb (Z.land (vf v) VERTEX_VISITED_MASK =? 0).

Section Low.
Variables (g : graph) (adj : Z -> list Z).
Hypotheses (R : rep g adj) (P : primary_edges g adj).
Hypothesis DF : dfs_forest g adj (par g) (fun v => v).
Hypothesis Room : gN g <= gstackCap g.

Definition is_child (e : Z) : bool := etype g e =? EDGE_TYPE_CHILD.
Definition children (u : Z) : list Z := map (enbr g) (filter is_child (adj u)).

Lemma child_iff u c : primary g u -> (In c (children u) <-> primary g c /\ par g c = u).
Proof.
  intros Hu. unfold children. rewrite in_map_iff. split.
  - intros (e & <- & He). apply filter_In in He. destruct He as [He Ht]. apply Z.eqb_eq in Ht.
    destruct (arc_primary _ _ R P _ _ He) as [_ Pn]. split; [auto|].
    assert (Hn : enbr g e <> u). { intros E. rewrite (df_loops _ _ _ _ DF u e He E) in Ht. discriminate. }
    pose proof (df_edges _ _ _ _ DF u e He Hn) as Q. cbv zeta in Q.
    destruct Q as [(Q1 & Q2 & Q3)|[(Q1 & Q2 & Q3)|[(Q1 & Q2 & Q3)|(Q1 & Q2 & Q3)]]]; auto; rewrite Q1 in Ht; discriminate.
  - intros [Pc <-]. destruct (df_treearc _ _ _ _ DF c Pc) as (e & B1 & B2 & B3 & _); [destruct Hu; unfold NIL; lia|].
    exists e. split; [auto|]. apply filter_In. split; [auto|]. unfold is_child. rewrite B3. reflexivity.
Qed.
Lemma children_nodup u : NoDup (children u).
Proof.
  unfold children. pose proof (ch_nodup _ _ (rep_chains _ _ R) u) as N.
  assert (H : forall e e', In e (adj u) -> In e' (adj u) -> etype g e = EDGE_TYPE_CHILD -> etype g e' = EDGE_TYPE_CHILD -> enbr g e = enbr g e' -> e = e').
  { intros e e' He He' Ht Ht' E. destruct (arc_primary _ _ R P _ _ He) as [Pu Pn].
    assert (Hp : par g (enbr g e) = u).
    { apply (child_iff u (enbr g e) Pu). apply in_map_iff. exists e. split; [auto|]. apply filter_In. split; [auto|].
      unfold is_child. now rewrite Ht. }
    destruct (df_treearc _ _ _ _ DF (enbr g e) Pn) as (e0 & _ & _ & _ & B4); [rewrite Hp; destruct Pu; unfold NIL; lia|].
    rewrite (B4 u e He eq_refl Ht). symmetry. apply (B4 u e' He'); auto. }
  assert (H' : forall e e', In e (filter is_child (adj u)) -> In e' (filter is_child (adj u)) -> enbr g e = enbr g e' -> e = e').
  { intros e e' He He'. apply filter_In in He, He'. destruct He as [He Ht], He' as [He' Ht']. apply Z.eqb_eq in Ht, Ht'. auto. }
  apply (NoDup_filter is_child) in N. revert N H'. generalize (filter is_child (adj u)). intros l. induction l as [|a l IH]; intros N H'; [constructor|].
  apply NoDup_cons_iff in N. destruct N as [Na N]. cbn [map]. constructor.
  - intros Hi. apply in_map_iff in Hi. destruct Hi as (b & E & Hb). apply H' in E; [subst; auto|now right|now left].
  - apply IH; [auto|]. intros; apply H'; auto; now right.
Qed.

Lemma anc_child u d : primary g d -> ancestor (par g) u d -> u = d \/ exists c, primary g c /\ par g c = u /\ ancestor (par g) c d.
Proof.
  intros Hd H. induction H as [|d Hn H IH]; [auto|]. right. destruct (df_parent _ _ _ _ DF d Hd Hn) as [Pp _].
  destruct (IH Pp) as [->|(c & C1 & C2 & C3)].
  - exists d. do 2 (split; [auto|]). constructor.
  - exists c. do 2 (split; [auto|]). now apply anc_step.
Qed.
Lemma anc_le u d : primary g d -> ancestor (par g) u d -> u <= d.
Proof.
  intros Hd H. induction H as [|d Hn H IH]; [lia|]. destruct (df_parent _ _ _ _ DF d Hd Hn) as [Pp Hl]. specialize (IH Pp). lia.
Qed.

(** *** Loops over one adjacency list *)
Lemma lst_inE st vf la lo v e : In e (adj v) -> inE (lst g st vf la lo) e = true.
Proof. intros H. apply (arc_inE g adj R (lst g st vf la lo) v); auto. Qed.
Lemma lst_inV st vf la lo v : primary g v -> inV (lst g st vf la lo) v = true /\ inVI (lst g st vf la lo) v = true.
Proof. intros H. apply (prim_inV g (lst g st vf la lo)); auto. Qed.
Lemma get_type s e : inE s e = true -> gp_GetEdgeType s e = Ret (Z.land (eflags s e) EDGE_TYPE_MASK).
Proof. intros H. unfold gp_GetEdgeType. now rewrite (rd_eflags_ok _ _ H). Qed.

Lemma push_children_ok u : forall l done n st vf la lo, adj u = done ++ l -> (length l < n)%nat ->
  Z.of_nat (length st) + Z.of_nat (length (filter is_child l)) <= gstackCap g ->
  push_children_loop n (lst g st vf la lo) (hd NIL l) =
    Ret (lst g (rev (map (enbr g) (filter is_child l)) ++ st) vf la lo).
Proof.
  induction l as [|e l IH]; intros done n st vf la lo E Hn Hc; destruct n as [|n]; cbn [length] in Hn; try lia.
  - cbn [push_children_loop hd]. rewrite Z.eqb_refl. reflexivity.
  - cbn [push_children_loop hd].
    assert (Hi : In e (adj u)) by (rewrite E; apply in_app_iff; right; now left).
    rewrite (eqb_false_neq e NIL) by (apply (ch_nonnil _ _ _ _ (rep_chains _ _ R) Hi)).
    pose proof (lst_inE st vf la lo u e Hi) as I. rewrite (get_type _ _ I). cbn [bind].
    change (Z.land (eflags (lst g st vf la lo) e) EDGE_TYPE_MASK =? EDGE_TYPE_CHILD) with (is_child e).
    assert (Enx : forall s, enext (lst g s vf la lo) e = hd NIL l) by (intros s; apply (chains_links _ _ _ _ _ _ (rep_chains _ _ R) E)).
    cbn [filter] in *. destruct (is_child e) eqn:Ec.
    + rewrite (get_nbr _ _ I). cbn [bind]. unfold stk_push. cbn [length] in Hc.
      rewrite guard_true by (unfold lst; gsimp; lia). cbn [bind].
      change (set_gstack (lst g st vf la lo) (enbr (lst g st vf la lo) e :: gstack (lst g st vf la lo))) with (lst g (enbr g e :: st) vf la lo).
      rewrite get_next by (apply (lst_inE _ _ _ _ u); auto). cbn [bind]. rewrite Enx.
      rewrite (IH (done ++ [e])); [|now rewrite <- app_assoc|lia|cbn [length]; lia].
      cbn [map rev]. rewrite <- app_assoc. reflexivity.
    + cbn [bind]. rewrite get_next by (apply (lst_inE _ _ _ _ u); auto). cbn [bind]. rewrite Enx.
      apply (IH (done ++ [e])); [now rewrite <- app_assoc|lia|lia].
Qed.

Lemma children_len u : primary g u -> Z.of_nat (length (children u)) <= gN g.
Proof.
  intros Hu. pose proof (nodup_range_length (children u) 1 (gN g + 1) (children_nodup u)) as H.
  pose proof (st_N _ _ (rep_storage _ _ R)).
  enough (Z.of_nat (length (children u)) <= Z.max 0 (gN g + 1 - 1)) by lia. apply H.
  intros x Hx. apply (child_iff u x Hu) in Hx. destruct Hx as [[] _]. lia.
Qed.

Definition back_of (l : list Z) (x : Z) : Prop := exists e, In e l /\ etype g e = EDGE_TYPE_BACK /\ enbr g e = x.
Definition chld_of (l : list Z) (x : Z) : Prop := exists e, In e l /\ etype g e = EDGE_TYPE_CHILD /\ enbr g e = x.

Lemma low_loop_ok u st vf la lo : forall l done n a0 L0, adj u = done ++ l -> (length l < n)%nat ->
  wp (low_loop n (lst g st vf la lo) (hd NIL l) a0 L0) (fun p => let '(a, L) := p in
    a <= a0 /\ (forall x, back_of l x -> a <= x) /\ (a = a0 \/ back_of l a) /\
    L <= L0 /\ (forall x, chld_of l x -> L <= lo x) /\ (L = L0 \/ exists x, chld_of l x /\ L = lo x)).
Proof.
  induction l as [|e l IH]; intros done n a0 L0 E Hn; destruct n as [|n]; cbn [length] in Hn; try lia.
  - cbn [low_loop hd]. rewrite Z.eqb_refl. apply wp_ret. repeat split; try lia; auto.
    + intros x (e & [] & _).
    + intros x (e & [] & _).
  - cbn [low_loop hd].
    assert (Hi : In e (adj u)) by (rewrite E; apply in_app_iff; right; now left).
    rewrite (eqb_false_neq e NIL) by (apply (ch_nonnil _ _ _ _ (rep_chains _ _ R) Hi)).
    pose proof (lst_inE st vf la lo u e Hi) as I.
    destruct (arc_primary _ _ R P _ _ Hi) as [Pu Pn].
    assert (Enx : enext (lst g st vf la lo) e = hd NIL l) by (apply (chains_links _ _ _ _ _ _ (rep_chains _ _ R) E)).
    rewrite (get_nbr _ _ I). cbn [bind]. rewrite (get_type _ _ I). cbn [bind].
    change (Z.land (eflags (lst g st vf la lo) e) EDGE_TYPE_MASK) with (etype g e).
    change (enbr (lst g st vf la lo) e) with (enbr g e).
    destruct (etype g e =? EDGE_TYPE_CHILD) eqn:Ec; [|destruct (etype g e =? EDGE_TYPE_BACK) eqn:Eb].
    + apply Z.eqb_eq in Ec. unfold gp_GetVertexLowpoint, rd_vi. rewrite guard_true by (now apply lst_inV). cbn [bind].
      change (viLow (gVI (lst g st vf la lo)) (enbr g e)) with (lo (enbr g e)).
      rewrite (get_next _ _ I). cbn [bind]. rewrite Enx.
      eapply wp_mono; [apply (IH (done ++ [e])); [now rewrite <- app_assoc|lia]|].
      intros [a L] (A1 & A2 & A3 & A4 & A5 & A6).
      split; [auto|]. split; [|split; [|split; [|split]]].
      * intros x (e' & [<-|He'] & Ht & Hx); [rewrite Ec in Ht; discriminate|]. apply A2. exists e'. auto.
      * destruct A3 as [A3|(e' & He' & Ht & Hx)]; [auto|]. right. exists e'. split; [now right|auto].
      * destruct (L0 >? lo (enbr g e)) eqn:X; lia.
      * intros x (e' & [<-|He'] & Ht & Hx).
        -- subst x. destruct (L0 >? lo (enbr g e)) eqn:X; lia.
        -- apply A5. exists e'. auto.
      * destruct A6 as [A6|(x & (e' & He' & Ht & Hx) & A6)].
        -- destruct (L0 >? lo (enbr g e)) eqn:X; [|left; lia]. right. exists (enbr g e). split; [|lia]. exists e. split; [now left|auto].
        -- right. exists x. split; [|auto]. exists e'. split; [now right|auto].
    + apply Z.eqb_neq in Ec. apply Z.eqb_eq in Eb. cbn [bind]. rewrite (get_next _ _ I). cbn [bind]. rewrite Enx.
      eapply wp_mono; [apply (IH (done ++ [e])); [now rewrite <- app_assoc|lia]|].
      intros [a L] (A1 & A2 & A3 & A4 & A5 & A6).
      split; [destruct (a0 >? enbr g e) eqn:X; lia|]. split; [|split; [|split; [|split]]]; auto.
      * intros x (e' & [<-|He'] & Ht & Hx); [subst x; destruct (a0 >? enbr g e) eqn:X; lia|]. apply A2. exists e'. auto.
      * destruct A3 as [A3|(e' & He' & Ht & Hx)]; [|right; exists e'; split; [now right|auto]].
        destruct (a0 >? enbr g e) eqn:X; [right|left; auto]. exists e. split; [now left|auto].
      * intros x (e' & [<-|He'] & Ht & Hx); [congruence|]. apply A5. exists e'. auto.
      * destruct A6 as [A6|(x & (e' & He' & Ht & Hx) & A6)]; [auto|]. right. exists x. split; [|auto]. exists e'. split; [now right|auto].
    + apply Z.eqb_neq in Ec, Eb. cbn [bind]. rewrite (get_next _ _ I). cbn [bind]. rewrite Enx.
      eapply wp_mono; [apply (IH (done ++ [e])); [now rewrite <- app_assoc|lia]|].
      intros [a L] (A1 & A2 & A3 & A4 & A5 & A6).
      split; [auto|]. split; [|split; [|split; [|split]]]; auto.
      * intros x (e' & [<-|He'] & Ht & Hx); [congruence|]. apply A2. exists e'. auto.
      * destruct A3 as [A3|(e' & He' & Ht & Hx)]; [auto|]. right. exists e'. split; [now right|auto].
      * intros x (e' & [<-|He'] & Ht & Hx); [congruence|]. apply A5. exists e'. auto.
      * destruct A6 as [A6|(x & (e' & He' & Ht & Hx) & A6)]; [auto|]. right. exists x. split; [|auto]. exists e'. split; [now right|auto].
Qed.

(** *** State of the traversal of one tree, with root v0 *)
Definition final (la lo : Z -> Z) (x : Z) : Prop :=
  is_min (la x) (back_reach g adj x) /\ is_min (lo x) (low_reach g adj x).
Record linv (v0 : Z) (st vs dn : list Z) (vf la lo vf0 la0 lo0 : Z -> Z) : Prop := {
  li_vs : NoDup vs /\ forall x, In x vs <-> primary g x /\ vis vf x = true;
  li_dn : NoDup dn /\ forall x, In x dn -> In x vs;
  li_final : forall x, In x dn -> final la lo x /\ forall c, In c (children x) -> In c dn;
  li_st : NoDup st /\ forall x, In x st -> primary g x /\ ancestor (par g) v0 x /\ ~ In x dn /\ (x = v0 \/ In (par g x) vs);
  li_open : forall x, In x vs -> ~ In x dn -> exists s1 s2, st = s1 ++ x :: s2 /\ forall c, In c (children x) -> In c dn \/ In c s1;
  li_range : forall x, In x vs -> x < v0 \/ ancestor (par g) v0 x;
  li_par : forall x, In x vs -> x = v0 \/ par g x = NIL \/ In (par g x) vs;
  li_np : forall x, ~ primary g x -> vf x = vf0 x /\ la x = la0 x /\ lo x = lo0 x;
  li_vf : forall x, Z.ldiff (vf x) VERTEX_VISITED_MASK = Z.ldiff (vf0 x) VERTEX_VISITED_MASK }.

Lemma vis_upd vf u x : vis (upd vf u (Z.lor (vf u) VERTEX_VISITED_MASK)) x = (x =? u) || vis vf x.
Proof.
  unfold vis, upd. destruct (x =? u) eqn:E; [|reflexivity]. unfold VERTEX_VISITED_MASK. now rewrite visited_set.
Qed.

Lemma linv_open v0 u st vs dn vf la lo vf0 la0 lo0 : linv v0 (u :: st) vs dn vf la lo vf0 la0 lo0 -> vis vf u = false ->
  linv v0 (rev (children u) ++ u :: st) (u :: vs) dn (upd vf u (Z.lor (vf u) VERTEX_VISITED_MASK)) la lo vf0 la0 lo0.
Proof.
  intros [[V1 V2] [N1 N2] Hf [S1 S2] Ho Hr Hp Hnp Hvf] Hu.
  destruct (S2 u (or_introl eq_refl)) as (Pu & Au & Du & Qu).
  assert (Nu : ~ In u vs). { intros H. apply V2 in H. destruct H; congruence. }
  assert (Cu : forall c, In c (children u) -> primary g c /\ par g c = u) by (intros c; apply (child_iff u c Pu)).
  assert (Cp : forall c, In c (children u) -> par g c <> NIL) by (intros c Hc; destruct (Cu c Hc) as [_ ->]; destruct Pu; unfold NIL; lia).
  assert (Cg : forall c, In c (children u) -> u < c).
  { intros c Hc. destruct (Cu c Hc) as [Pc Ec]. destruct (df_parent _ _ _ _ DF c Pc (Cp c Hc)) as [_ L]. lia. }
  assert (Cs : forall c, In c (children u) -> ~ In c (u :: st)).
  { intros c Hc Hi. destruct (S2 c Hi) as (_ & _ & _ & [E|Q]).
    - pose proof (anc_le v0 u Pu Au). pose proof (Cg c Hc). lia.
    - destruct (Cu c Hc) as [_ Ec]. congruence. }
  constructor.
  - split; [now apply NoDup_cons|]. intros x. rewrite vis_upd. cbn [In]. rewrite V2. split.
    + intros [<-|[Hx Hx']]; [rewrite Z.eqb_refl; auto|]. rewrite Hx', orb_true_r. auto.
    + intros [Hx Hx']. destruct (x =? u) eqn:E; [left; lia|right; auto].
  - split; [auto|]. intros x Hx. right; auto.
  - auto.
  - split.
    + apply NoDup_app_intro; [apply NoDup_rev, children_nodup|auto|]. intros x Hx. apply in_rev in Hx. now apply Cs.
    + intros x Hx. apply in_app_iff in Hx. destruct Hx as [Hx|Hx].
      * apply in_rev in Hx. destruct (Cu x Hx) as [Px Ex]. split; [auto|]. split; [apply anc_step; [now apply Cp|rewrite Ex; auto]|].
        split; [|right; rewrite Ex; now left]. intros Hd.
        pose proof (N2 x Hd) as Hv. destruct (Hp x Hv) as [E|[E|E]].
        -- pose proof (anc_le v0 u Pu Au). pose proof (Cg x Hx). lia.
        -- now apply (Cp x Hx).
        -- congruence.
      * destruct (S2 x Hx) as (B1 & B2 & B3 & B4). do 3 (split; [auto|]). destruct B4; [auto|right; now right].
  - intros x [<-|Hx] Hd.
    + exists (rev (children u)), st. split; [reflexivity|]. intros c Hc. right. now apply -> in_rev.
    + destruct (Ho x Hx Hd) as (s1 & s2 & E & Hc). exists (rev (children u) ++ s1), s2. split.
      * rewrite <- app_assoc, <- E. reflexivity.
      * intros c Hi. destruct (Hc c Hi); [auto|]. right. apply in_app_iff. auto.
  - intros x [<-|Hx]; auto.
  - intros x [<-|Hx].
    + destruct Qu; [auto|]. right; right. now right.
    + destruct (Hp x Hx) as [|[|]]; auto. right; right; now right.
  - intros x Hx. destruct (Hnp x Hx) as (B1 & B2 & B3). rewrite upd_other by congruence. auto.
  - intros x. unfold upd. destruct (x =? u) eqn:E; [|auto]. apply Z.eqb_eq in E. subst x. rewrite ldiff_lor_mask by reflexivity. auto.
Qed.

Lemma linv_close v0 u st vs dn vf la lo vf0 la0 lo0 a L : linv v0 (u :: st) vs dn vf la lo vf0 la0 lo0 -> vis vf u = true ->
  a <= u -> (forall x, back_of (adj u) x -> a <= x) -> (a = u \/ back_of (adj u) a) ->
  L <= u -> (forall x, chld_of (adj u) x -> L <= lo x) -> (L = u \/ exists x, chld_of (adj u) x /\ L = lo x) ->
  linv v0 st vs (u :: dn) vf (upd la u a) (upd lo u (if a <? L then a else L)) vf0 la0 lo0.
Proof.
  intros [[V1 V2] [N1 N2] Hf [S1 S2] Ho Hr Hp Hnp Hvf] Hu A1 A2 A3 L1 L2 L3.
  destruct (S2 u (or_introl eq_refl)) as (Pu & Au & Du & Qu).
  apply NoDup_cons_iff in S1. destruct S1 as [Nu S1].
  assert (Iu : In u vs) by (apply V2; auto).
  assert (Kids : forall c, In c (children u) -> In c dn).
  { destruct (Ho u Iu Du) as (s1 & s2 & E & Hc). destruct s1 as [|b s1].
    - intros c Hi. destruct (Hc c Hi) as [|[]]. auto.
    - cbn [app] in E. injection E as <- E. exfalso. apply Nu. rewrite E. apply in_app_iff. right. now left. }
  assert (Ch : forall x, chld_of (adj u) x <-> In x (children u)).
  { intros x. unfold children. rewrite in_map_iff. split.
    - intros (e & H1 & H2 & H3). exists e. split; [auto|]. apply filter_In. split; [auto|]. unfold is_child. now rewrite H2.
    - intros (e & H1 & H2). apply filter_In in H2. destruct H2 as [H2 H3]. apply Z.eqb_eq in H3. exists e. auto. }
  assert (Fin : final (upd la u a) (upd lo u (if a <? L then a else L)) u).
  { assert (Ba : back_reach g adj u a) by (destruct A3 as [->|(e & E1 & E2 & E3)]; [now left|right; exists e; auto]).
    split; rewrite upd_same.
    - split; [exact Ba|]. intros x [->|(e & E1 & E2 & E3)]; [auto|]. apply A2. exists e. auto.
    - assert (La : low_reach g adj u a) by (exists u; split; [auto|split; [constructor|auto]]).
      assert (Uu : low_reach g adj u u) by (exists u; split; [auto|split; [constructor|now left]]).
      assert (LL : low_reach g adj u L).
      { destruct L3 as [->|(c & Hc & ->)]; [auto|]. apply Ch in Hc. pose proof (Kids c Hc) as Hd.
        destruct (Hf c Hd) as [[_ [(d & D1 & D2 & D3) _]] _]. apply (child_iff u c Pu) in Hc. destruct Hc as [Pc Ec].
        exists d. split; [auto|]. split; [|auto]. apply anc_trans with c; [|auto]. apply anc_step; rewrite Ec; [destruct Pu; unfold NIL; lia|constructor]. }
      split; [destruct (a <? L); auto|].
      intros x (d & D1 & D2 & D3). destruct (anc_child u d D1 D2) as [->|(c & C1 & C2 & C3)].
      + assert (a <= x). { destruct D3 as [->|(e & E1 & E2 & E3)]; [auto|]. apply A2. exists e; auto. }
        destruct (a <? L) eqn:X; lia.
      + assert (Hc : In c (children u)) by (apply (child_iff u c Pu); auto).
        destruct (Hf c (Kids c Hc)) as [[_ [_ Mn]] _]. assert (lo c <= x) by (apply Mn; exists d; auto).
        assert (L <= lo c) by (apply L2, Ch, Hc). destruct (a <? L) eqn:X; lia. }
  constructor.
  - auto.
  - split; [now apply NoDup_cons|]. intros x [<-|Hx]; auto.
  - intros x [<-|Hx].
    + split; [exact Fin|]. intros c Hc. right. auto.
    + assert (Nx : x <> u) by (intros ->; auto). destruct (Hf x Hx) as [F1 F2]. split; [|intros c Hc; right; auto].
      unfold final. rewrite !upd_other by auto. exact F1.
  - split; [auto|]. intros x Hx. destruct (S2 x (or_intror Hx)) as (B1 & B2 & B3 & B4). do 2 (split; [auto|]). split; [|auto].
    intros [->|Hd]; auto.
  - intros x Hx Hd. cbn [In] in Hd. destruct (Ho x Hx) as (s1 & s2 & E & Hc); [tauto|].
    destruct s1 as [|b s1]; cbn [app] in E; injection E as E1 E2; [exfalso; auto|].
    exists s1, s2. split; [auto|]. intros c Hi. destruct (Hc c Hi) as [H|[H|H]]; [left; now right|left; left; congruence|auto].
  - auto.
  - auto.
  - intros x Hx. rewrite !upd_other by congruence. auto.
  - auto.
Qed.

Lemma linv_len v0 st vs dn vf la lo vf0 la0 lo0 : linv v0 st vs dn vf la lo vf0 la0 lo0 ->
  Z.of_nat (length st) <= gN g /\ Z.of_nat (length vs) <= gN g /\ Z.of_nat (length dn) <= Z.of_nat (length vs).
Proof.
  intros [[V1 V2] [N1 N2] Hf [S1 S2] Ho Hr Hp Hnp Hvf]. pose proof (st_N _ _ (rep_storage _ _ R)) as HN.
  repeat split.
  - pose proof (nodup_range_length st 1 (gN g + 1) S1) as H.
    enough (Z.of_nat (length st) <= Z.max 0 (gN g + 1 - 1)) by lia. apply H. intros x Hx. destruct (S2 x Hx) as [[] _]. lia.
  - pose proof (nodup_range_length vs 1 (gN g + 1) V1) as H.
    enough (Z.of_nat (length vs) <= Z.max 0 (gN g + 1 - 1)) by lia. apply H. intros x Hx. apply V2 in Hx. destruct Hx as [[] _]. lia.
  - pose proof (NoDup_incl_length N1 N2). lia.
Qed.

Definition ltree_post (v0 : Z) (vf0 la0 lo0 : Z -> Z) (p : graph * Z) : Prop :=
  exists vs dn vf la lo, linv v0 [] vs dn vf la lo vf0 la0 lo0 /\ fst p = lst g [] vf la lo /\ snd p = 1 + Z.of_nat (length vs).

Lemma low_tree_ok v0 vf0 la0 lo0 : forall n st vs dn vf la lo, linv v0 st vs dn vf la lo vf0 la0 lo0 ->
  2 * gN g - Z.of_nat (length vs) - Z.of_nat (length dn) < Z.of_nat n ->
  wp (low_tree_loop n (lst g st vf la lo) (1 + Z.of_nat (length vs))) (fun p => ltree_post v0 vf0 la0 lo0 p /\
     exists vs', snd p = 1 + Z.of_nat (length vs') /\ incl vs vs' /\ incl st vs' /\ forall x, In x vs' <-> primary g x /\ vis (vflags (fst p)) x = true).
Proof.
  induction n as [|n IH]; intros st vs dn vf la lo I Hn; pose proof (linv_len _ _ _ _ _ _ _ _ _ _ I) as (L1 & L2 & L3); [lia|].
  cbn [low_tree_loop]. unfold stk_empty. change (gstack (lst g st vf la lo)) with st.
  destruct st as [|u st].
  - apply wp_ret. split; [exists vs, dn, vf, la, lo; auto|]. exists vs. split; [reflexivity|]. split; [apply incl_refl|].
    split; [intros x []|]. apply (li_vs _ _ _ _ _ _ _ _ _ _ I).
  - destruct (proj2 (li_st _ _ _ _ _ _ _ _ _ _ I) u (or_introl eq_refl)) as (Pu & Au & Du & Qu).
    unfold stk_pop. change (gstack (lst g (u :: st) vf la lo)) with (u :: st). cbn [bind].
    change (set_gstack (lst g (u :: st) vf la lo) st) with (lst g st vf la lo).
    destruct (lst_inV st vf la lo u Pu) as [Iv Ii]. rewrite (get_visited _ _ Iv). cbn [bind].
    change (vflags (lst g st vf la lo) u) with (vf u).
    destruct (Z.land (vf u) VERTEX_VISITED_MASK =? 0) eqn:Ev.
    + assert (Hv : vis vf u = false) by (unfold vis; now rewrite Ev).
      pose proof (linv_open _ _ _ _ _ _ _ _ _ _ _ I Hv) as I'.
      pose proof (linv_len _ _ _ _ _ _ _ _ _ _ I') as (L1' & L2' & L3').
      unfold gp_SetVertexVisited. rewrite (rd_vflags_ok _ _ Iv). cbn [bind]. rewrite (wr_vflags_ok _ _ _ Iv). cbn [bind].
      change (set_vflags (lst g st vf la lo) (upd (vflags (lst g st vf la lo)) u (Z.lor (vflags (lst g st vf la lo) u) VERTEX_VISITED_MASK)))
        with (lst g st (upd vf u (Z.lor (vf u) VERTEX_VISITED_MASK)) la lo).
      set (vf' := upd vf u (Z.lor (vf u) VERTEX_VISITED_MASK)) in *.
      unfold stk_push. rewrite guard_true by (unfold lst; gsimp; cbn [length] in L1; lia). cbn [bind].
      change (set_gstack (lst g st vf' la lo) (u :: gstack (lst g st vf' la lo))) with (lst g (u :: st) vf' la lo).
      rewrite get_first by (apply lst_inV; auto). cbn [bind].
      change (vfirst (lst g (u :: st) vf' la lo) u) with (vfirst g u).
      rewrite (ch_first _ _ (rep_chains _ _ R) u) by (destruct Pu; unfold is_vertex; lia).
      change (efuel (lst g (u :: st) vf' la lo)) with (efuel g).
      rewrite (push_children_ok u (adj u) []); [|reflexivity|apply (adj_len g adj u), R|].
      2:{ rewrite app_length, rev_length in L1'. unfold children in L1'. rewrite map_length in L1'. lia. }
      cbn [bind]. fold (children u).
      replace (1 + Z.of_nat (length vs) + 1) with (1 + Z.of_nat (length (u :: vs))) by (cbn [length]; lia).
      eapply wp_mono; [apply (IH _ _ _ _ _ _ I'); cbn [length] in *; lia|].
      intros p (Q1 & vs' & Q2 & Q3 & Q4 & Q5). split; [auto|]. exists vs'. split; [auto|]. split; [|split; [|auto]].
      * intros x Hx. apply Q3. now right.
      * intros x Hx. apply Q4. apply in_app_iff. now right.
    + assert (Hv : vis vf u = true) by (unfold vis; now rewrite Ev).
      rewrite (get_first _ _ Iv). cbn [bind].
      change (vfirst (lst g st vf la lo) u) with (vfirst g u).
      rewrite (ch_first _ _ (rep_chains _ _ R) u) by (destruct Pu; unfold is_vertex; lia).
      change (efuel (lst g st vf la lo)) with (efuel g). apply wp_bind.
      eapply wp_mono; [apply (low_loop_ok u st vf la lo (adj u) []); [reflexivity|apply (adj_len g adj u), R]|].
      intros [a L] (A1 & A2 & A3 & A4 & A5 & A6).
      unfold gp_SetVertexLeastAncestor. rewrite (guard_true _ _ Ii). cbn [bind].
      change (set_gVI (lst g st vf la lo) (set_viLeast (gVI (lst g st vf la lo)) (upd (viLeast (gVI (lst g st vf la lo))) u a)))
        with (lst g st vf (upd la u a) lo).
      unfold gp_SetVertexLowpoint. rewrite guard_true by (now apply lst_inV). cbn [bind].
      change (set_gVI (lst g st vf (upd la u a) lo) (set_viLow (gVI (lst g st vf (upd la u a) lo)) (upd (viLow (gVI (lst g st vf (upd la u a) lo))) u (if a <? L then a else L))))
        with (lst g st vf (upd la u a) (upd lo u (if a <? L then a else L))).
      pose proof (linv_close _ _ _ _ _ _ _ _ _ _ _ a L I Hv A1 A2 A3 A4 A5 A6) as I'.
      eapply wp_mono; [apply (IH _ _ _ _ _ _ I'); cbn [length] in *; lia|].
      intros p (Q1 & vs' & Q2 & Q3 & Q4 & Q5). split; [auto|]. exists vs'. split; [auto|]. split; [auto|]. split; [|auto].
      intros x [<-|Hx]; [|auto]. apply Q3. apply (proj2 (li_vs _ _ _ _ _ _ _ _ _ _ I)). auto.
Qed.

(** *** All trees *)
Record lfin (v : Z) (vf la lo vf0 la0 lo0 : Z -> Z) : Prop := {
  lf_vis : forall x, primary g x -> (vis vf x = true <-> x < v);
  lf_kids : forall x c, primary g x -> x < v -> In c (children x) -> c < v;
  lf_final : forall x, primary g x -> x < v -> final la lo x;
  lf_np : forall x, ~ primary g x -> vf x = vf0 x /\ la x = la0 x /\ lo x = lo0 x;
  lf_vf : forall x, Z.ldiff (vf x) VERTEX_VISITED_MASK = Z.ldiff (vf0 x) VERTEX_VISITED_MASK }.

Definition zto (n : Z) : list Z := map (fun i : nat => (Z.of_nat i + 1)%Z) (seq 0 (Z.to_nat n)).
Lemma zto_in n x : In x (zto n) <-> 1 <= x <= n.
Proof.
  unfold zto. rewrite in_map_iff. split.
  - intros (i & <- & Hi). apply in_seq in Hi. lia.
  - intros H. exists (Z.to_nat (x - 1)). split; [lia|]. apply in_seq. lia.
Qed.
Lemma zto_nodup n : NoDup (zto n).
Proof. apply FinFun.Injective_map_NoDup; [intros a b; lia|apply seq_NoDup]. Qed.
Lemma zto_len n : length (zto n) = Z.to_nat n.
Proof. unfold zto. now rewrite map_length, seq_length. Qed.

(** a finite down-closed set of positive numbers is an initial segment *)
Lemma downclosed (l : list Z) : NoDup l -> (forall x, In x l -> 1 <= x) ->
  (forall x y, In y l -> 1 <= x <= y -> In x l) -> forall x, In x l <-> 1 <= x <= Z.of_nat (length l).
Proof.
  intros N H1 H2 x. split.
  - intros Hx. split; [auto|]. pose proof (H1 x Hx).
    assert (L : (length (zto x) <= length l)%nat).
    { apply NoDup_incl_length; [apply zto_nodup|]. intros y Hy. apply zto_in in Hy. apply (H2 y x); auto. }
    rewrite zto_len in L. lia.
  - intros Hx. destruct (in_dec Z.eq_dec x l) as [|Nx]; [auto|]. exfalso.
    assert (L : (length l <= length (zto (x - 1)))%nat).
    { apply NoDup_incl_length; [auto|]. intros y Hy. apply zto_in. split; [auto|].
      destruct (Z_le_dec x y); [|lia]. exfalso. apply Nx. apply (H2 x y); auto. lia. }
    rewrite zto_len in L. lia.
Qed.

Lemma low_forest_ok vf0 la0 lo0 : forall n v vf la lo, lfin v vf la lo vf0 la0 lo0 -> 1 <= v <= gN g + 1 ->
  gN g + 1 - v < Z.of_nat n ->
  wp (low_forest_loop n (lst g [] vf la lo) v) (fun s => exists vf' la' lo', s = lst g [] vf' la' lo' /\ lfin (gN g + 1) vf' la' lo' vf0 la0 lo0).
Proof.
  induction n as [|n IH]; intros v vf la lo F Hv Hn; [lia|]. cbn [low_forest_loop].
  change (gN (lst g [] vf la lo)) with (gN g). destruct (v <=? gN g) eqn:E; [apply Z.leb_le in E|apply Z.leb_gt in E].
  - assert (Pv : primary g v) by (split; lia).
    destruct (lst_inV [] vf la lo v Pv) as [Iv _]. rewrite (get_visited _ _ Iv). cbn [bind].
    assert (Uv : vis vf v = false).
    { destruct (vis vf v) eqn:X; [|auto]. apply (lf_vis _ _ _ _ _ _ _ F v Pv) in X. lia. }
    change (vflags (lst g [] vf la lo) v) with (vf v). unfold vis in Uv. rewrite Uv.
    unfold stk_push. pose proof (st_N _ _ (rep_storage _ _ R)) as HN. rewrite guard_true by (unfold lst; gsimp; cbn [length]; lia). cbn [bind].
    change (set_gstack (lst g [] vf la lo) (v :: gstack (lst g [] vf la lo))) with (lst g [v] vf la lo).
    assert (I : linv v [v] (zto (v - 1)) (zto (v - 1)) vf la lo vf0 la0 lo0).
    { assert (Zi : forall x, In x (zto (v - 1)) <-> primary g x /\ x < v) by (intros x; rewrite zto_in; unfold primary; lia).
      constructor.
      - split; [apply zto_nodup|]. intros x. rewrite Zi. split; intros [H1 H2]; (split; [auto|]); now apply (lf_vis _ _ _ _ _ _ _ F x H1).
      - split; [apply zto_nodup|auto].
      - intros x Hx. apply Zi in Hx. destruct Hx as [H1 H2]. split; [now apply (lf_final _ _ _ _ _ _ _ F)|].
        intros c Hc. apply Zi. split; [now apply (child_iff x c H1)|]. now apply (lf_kids _ _ _ _ _ _ _ F x).
      - split; [repeat constructor; auto|]. intros x [<-|[]]. split; [auto|]. split; [constructor|]. split; [rewrite Zi; lia|auto].
      - intros x Hx Hd. tauto.
      - intros x Hx. apply Zi in Hx. left. tauto.
      - intros x Hx. apply Zi in Hx. destruct Hx as [H1 H2]. destruct (Z.eq_dec (par g x) NIL) as [|N]; [auto|].
        right; right. destruct (df_parent _ _ _ _ DF x H1 N) as [Q1 Q2]. apply Zi. split; [auto|lia].
      - apply F.
      - apply F. }
    assert (Lz : Z.of_nat (length (zto (v - 1))) = v - 1) by (rewrite zto_len; lia).
    pose proof (low_tree_ok v vf0 la0 lo0 (tfuel (lst g [v] vf la lo)) _ _ _ _ _ _ I) as W.
    rewrite Lz in W. replace (1 + (v - 1)) with v in W by lia. apply wp_bind. eapply wp_mono; [apply W|].
    { unfold tfuel. change (gN (lst g [v] vf la lo)) with (gN g). change (gp_EdgeIndexBound (lst g [v] vf la lo)) with (gp_EdgeIndexBound g).
      pose proof (cap_nonneg _ _ R). unfold gp_EdgeIndexBound. rewrite Nat2Z.inj_succ, Nat2Z.inj_mul, !Nat2Z.inj_succ, !Z2Nat.id by lia. nia. }
    intros [s v'] ((vs & dn & vf' & la' & lo' & J & Es & Ev) & vs' & Ev' & Hi & Hst & Hvs'). cbn [fst snd] in *. subst s.
    assert (Hvs : forall x, In x vs <-> In x vs').
    { intros x. rewrite Hvs'. apply (li_vs _ _ _ _ _ _ _ _ _ _ J). }
    assert (Dn : forall x, In x vs -> In x dn).
    { intros x Hx. destruct (in_dec Z.eq_dec x dn) as [|N]; [auto|]. destruct (li_open _ _ _ _ _ _ _ _ _ _ J x Hx N) as (s1 & s2 & Q & _).
      destruct s1; discriminate. }
    (* the visited set is an initial segment *)
    assert (Sub : forall d, primary g d -> ancestor (par g) v d -> In d vs).
    { assert (S' : forall d, ancestor (par g) v d -> primary g d -> In d vs).
      { intros d H. induction H as [|d N H IHd]; intros Pd.
        - apply Hvs, Hst. now left.
        - destruct (df_parent _ _ _ _ DF d Pd N) as [Pp _]. specialize (IHd Pp). apply Dn in IHd.
          destruct (li_final _ _ _ _ _ _ _ _ _ _ J _ IHd) as [_ K].
          apply (proj2 (li_dn _ _ _ _ _ _ _ _ _ _ J)). apply K. apply child_iff; auto. }
      intros d Pd H. now apply S'. }
    assert (Low : forall x, primary g x -> x < v -> In x vs).
    { intros x Px Hx. apply Hvs, Hi, zto_in. destruct Px; lia. }
    assert (Seg : forall x, In x vs <-> 1 <= x <= Z.of_nat (length vs)).
    { apply downclosed.
      - apply (li_vs _ _ _ _ _ _ _ _ _ _ J).
      - intros x Hx. apply (li_vs _ _ _ _ _ _ _ _ _ _ J) in Hx. destruct Hx as [[] _]. auto.
      - intros x y Hy Hxy. pose proof (proj1 (proj2 (li_vs _ _ _ _ _ _ _ _ _ _ J) y) Hy) as [[Py1 Py2] _].
        assert (Px : primary g x) by (split; lia). destruct (Z_lt_dec x v) as [|Nx]; [auto|].
        destruct (li_range _ _ _ _ _ _ _ _ _ _ J y Hy) as [|Ay]; [lia|]. apply Sub; [auto|].
        apply (df_preorder _ _ _ _ DF v x y); auto; [split; lia|lia]. }
    pose proof (linv_len _ _ _ _ _ _ _ _ _ _ J) as (_ & L2 & _).
    assert (In v vs) as Iv' by (apply Sub; [auto|constructor]). apply Seg in Iv'.
    rewrite Ev. apply IH; [|lia|lia]. destruct J as [[V1 V2] [N1 N2] Hf _ Ho Hr Hp Hnp Hvf]. constructor; auto.
    + intros x Px. assert (X : vis vf' x = true <-> In x vs) by (rewrite V2; tauto). rewrite X, Seg. destruct Px; lia.
    + intros x c Px Hx Hc. assert (In x vs) as Ix by (apply Seg; destruct Px; lia). apply Dn in Ix.
      destruct (Hf x Ix) as [_ K]. apply K, N2, Seg in Hc. lia.
    + intros x Px Hx. assert (In x vs) as Ix by (apply Seg; destruct Px; lia). apply Dn in Ix. now apply Hf.
  - apply wp_ret. exists vf, la, lo. split; [auto|]. replace (gN g + 1) with v by lia. exact F.
Qed.
End Low.
