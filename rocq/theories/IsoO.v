(** * IsoO: walks over one biconnected component. *)
From Coq Require Import ZifyBool Permutation Sorted.
From Verif Require Import Base BaseP GraphRec GraphM GraphSpec GSimp LinkP GraphP GraphP2 GraphP3 ListM ListSpec ListP DFSM DFSSpec DFSP TestM TestSpec TestP TestP2 TestP3 EmbM EmbSpec EmbP EmbP2 EmbP3 FaceP GeoP GeoP2 EmbInv EmbStep EmbTree EmbOrient EmbWalk EmbJoin EmbDown EmbStor IsoM IsoP1.

Section Walk.
Variables (g0 : graph) (kids : Z -> list Z).
Hypothesis St : static g0 kids.
Local Notation N := (gN g0).
Local Notation p := (viParent (gVI g0)).
Local Notation prim := (prim (gN g0)).
Local Notation isroot := (isroot (gN g0)).
Local Notation geo := (geo (gN g0) (viParent (gVI g0))).
Local Notation vsof := (vsof (gN g0)).
Local Notation mem := (mem (gN g0)).
Local Notation rpv := (rpv g0).
Local Notation marked := (marked g0).
Variable s : gv.
Hypothesis G : geo NIL [] s.
Let G0 := g_base _ _ _ _ _ G.
Variable R : Z.
Hypothesis HR : isroot R.
Hypothesis NR : adj s R <> [].
Local Notation ol := (ol g0 s R).
Definition kidsof (W : Z) (cs : list Z) : Prop := NoDup cs /\ forall c, In c cs <-> exists e, In e (adj s W) /\ childarc s e /\ nb s e = c.

Lemma kids_list W (q : Z -> bool) l : (forall e, In e l <-> In e (adj s W)) -> NoDup l -> (forall e, In e l -> q e = true <-> childarc s e) -> kidsof W (map (nb s) (filter q l)).
Proof.
  intros El Nd Hq. split.
  - assert (Q2 : forall e, In e (filter q l) -> In e (adj s W) /\ childarc s e) by (intros e Hi; apply filter_In in Hi; destruct Hi as [A1 A2]; rewrite (Hq e A1) in A2; rewrite El in A1; auto).
    assert (Q : NoDup (filter q l)) by now apply NoDup_filter. clear - Q Q2 G0. induction (filter q l) as [|e m IHl]; [constructor|]. apply NoDup_cons_iff in Q. destruct Q as [Q Q']. cbn [map]. constructor.
    + rewrite in_map_iff. intros (e' & E & Hi). apply Q. destruct (Q2 e (or_introl eq_refl)), (Q2 e' (or_intror Hi)). rewrite (g_childq _ _ _ G0 W W e e'); auto.
    + apply IHl; auto. intros; apply Q2; now right.
  - intros c. rewrite in_map_iff. split.
    + intros (e & E & Hi). apply filter_In in Hi. destruct Hi as [A1 A2]. rewrite (Hq e A1) in A2. rewrite El in A1. eauto.
    + intros (e & A1 & A2 & A3). exists e. split; [auto|]. apply El in A1. apply filter_In. rewrite (Hq e A1). auto.
Qed.

(** A search that takes a vertex, does something to it and then puts its children on the stack. *)
Variable P : (Z -> bool) -> graph -> list Z -> Prop.
Variable loop : nat -> graph -> res graph.
Hypothesis Pstop : forall D g n, P D g [] -> loop (S n) g = Ret g.
Hypothesis Pstep : forall D g W ws n, P D g (W :: ws) -> In W (vsof s R) -> D W = false ->
  (forall cs, kidsof W cs -> (length (cs ++ ws) <= length (mem s R))%nat) ->
  exists g' cs, loop (S n) g = loop n g' /\ kidsof W cs /\ P (upd D W true) g' (rev cs ++ ws).

Lemma walk_loop : forall n D g ws, P D g ws -> ol D ws -> (todo g0 s R D < n)%nat ->
  exists g' D', loop n g = Ret g' /\ P D' g' [] /\ (forall x, In x (vsof s R) -> D' x = true) /\ (forall x, ~ In x (vsof s R) -> D' x = D x).
Proof.
  induction n as [|n IH]; intros D g ws H O Hn; [lia|]. destruct ws as [|W ws].
  - exists g, D. rewrite (Pstop _ _ _ H). split; [reflexivity|]. split; [exact H|]. split; [apply (ol_all g0 kids St s G R D HR NR O)|auto].
  - destruct (ol_in _ _ _ _ _ O W (or_introl eq_refl)) as [WV WD].
    pose proof (ol_nd _ _ _ _ _ O) as Ndw. apply NoDup_cons_iff in Ndw. destruct Ndw as [Nw Ndw].
    assert (Cns : forall c e, In e (adj s W) -> childarc s e -> nb s e = c -> In c (vsof s R) /\ c <> R /\ c <> W /\ D c = false /\ ~ In c ws).
    { intros c e A1 A2 <-. destruct (g_childu _ _ _ G0 W e A1 A2) as (P1 & P2 & P3). destruct (st_p _ _ St _ P1 P2) as [Q1 Q2].
      split; [eapply (arc_comp _ _ _ _ _ R W); eauto|]. split; [unfold GeoP.isroot, GeoP.prim in *; lia|]. split; [unfold GeoP.prim in *; lia|].
      split; [|intros Hi; assert (D W = true) by (eapply (ol_up _ _ _ _ _ O); eauto; right; right; auto); congruence].
      destruct (D (nb s e)) eqn:Q; [|auto]. assert (D W = true) by (eapply (ol_up _ _ _ _ _ O); eauto). congruence. }
    assert (Rws : forall w, In w ws -> w <> R).
    { intros w Hi ->. destruct (ol_root _ _ _ _ _ O) as [Q|[Q|Q]].
      - destruct (ol_in _ _ _ _ _ O R (or_intror Hi)). congruence.
      - subst. contradiction.
      - destruct (ol_in _ _ _ _ _ O R (or_intror Hi)) as [_ Q1].
        assert (W <> R) by (intros ->; contradiction).
        assert (PP : forall n z, (Z.to_nat z < n)%nat -> prim z -> B s z = R -> D z = true \/ In z (W :: ws) -> False).
        { clear - O Q1 G0 St HR. induction n as [|n IHn]; intros z Hz Pz Bz Hd; [lia|].
          assert (Pn : p z <> NIL). { intros E. destruct (g_B0 _ _ _ G0 z Pz E) as [Q _]. unfold GeoP.isroot in HR. unfold GeoP.prim in Pz. unfold NIL in Q. lia. }
          destruct (g_child _ _ _ G0 z Pz Pn) as (e & C1 & C2 & C3).
          assert (DS : forall x, In e (adj s x) -> D x = true) by (intros x Hx; eapply (ol_up _ _ _ _ _ O); eauto; now rewrite C2).
          revert C3. generalize (eq_refl (adj s (N + z))). destruct (adj s (N + z)) at 2 3; intros EA C3.
          - destruct (g_B2 _ _ _ G0 z Pz Pn EA) as [B2 _]. destruct (st_p _ _ St _ Pz Pn) as [P1 P2]. apply (IHn (p z)); auto; [unfold GeoP.prim in *; lia|congruence].
          - pose proof (g_B1 _ _ _ G0 z Pz Pn ltac:(congruence)) as B1. specialize (DS _ C3). congruence. }
        apply in_vsof in WV. destruct WV as [WV|[WV WB]]; [contradiction|]. apply (PP (S (Z.to_nat W)) W); auto. right. now left. }
    assert (Ndc : forall cs, kidsof W cs -> NoDup (cs ++ ws)).
    { intros cs [K1 K2]. apply NoDup_app_intro; [auto|auto|]. intros c Hc. apply K2 in Hc. destruct Hc as (e & A1 & A2 & A3). apply (Cns c e A1 A2 A3). }
    destruct (Pstep D g W ws n H WV WD) as (g1 & cs & E1 & Kc & H1).
    { intros cs Kc. apply NoDup_incl_length; [now apply Ndc|]. intros w Hw.
      assert (Q : In w (vsof s R) /\ w <> R).
      { apply in_app_iff in Hw. destruct Hw as [Hw|Hw]; [|split; [apply (ol_in _ _ _ _ _ O w (or_intror Hw))|auto]]. apply (proj2 Kc) in Hw. destruct Hw as (e & A1 & A2 & A3). split; apply (Cns w e A1 A2 A3). }
      destruct Q as [[Q|Q] Q2]; [congruence|exact Q]. }
    destruct Kc as [K1 K2]. pose proof (Ndc cs (conj K1 K2)) as Nd. rewrite E1.
    set (D1 := upd D W true) in *.
    assert (DT : forall x, D1 x = true <-> x = W \/ D x = true) by (intros x; unfold D1, upd; destruct (Z.eqb_spec x W) as [->|]; split; auto; intros [|]; auto; contradiction).
    destruct (IH D1 g1 (rev cs ++ ws) H1) as (g' & D' & W' & H' & R1 & R2).
    + constructor.
      * intros w Hw. apply in_app_iff in Hw. destruct Hw as [Hw|Hw].
        -- apply in_rev in Hw. apply K2 in Hw. destruct Hw as (e & B1 & B2 & B3). destruct (Cns w e B1 B2 B3) as (A1 & A2 & A3 & A4 & A5). split; [auto|]. unfold D1. now rewrite upd_other.
        -- destruct (ol_in _ _ _ _ _ O w (or_intror Hw)). split; [auto|]. unfold D1. rewrite upd_other by (intros ->; contradiction). auto.
      * eapply Permutation_NoDup; [|exact Nd]. apply Permutation_app_tail, Permutation_rev.
      * destruct (ol_root _ _ _ _ _ O) as [Q|[Q|Q]]; [left; apply DT; auto|left; apply DT; auto|right; apply in_app_iff; auto].
      * intros x e Hx Dx He Hc. apply DT in Dx. destruct Dx as [->|Dx].
        -- right. apply in_app_iff. left. apply -> in_rev. apply K2. eauto.
        -- destruct (ol_closed _ _ _ _ _ O x e Hx Dx He Hc) as [Q|[Q|Q]]; [left; apply DT; auto|left; apply DT; auto|right; apply in_app_iff; auto].
      * intros x e He Hc Hd. apply DT. destruct Hd as [Hd|Hd].
        -- apply DT in Hd. destruct Hd as [Hd|Hd]; right; apply (ol_up _ _ _ _ _ O x e He Hc); [right; left; auto|auto].
        -- apply in_app_iff in Hd. destruct Hd as [Hd|Hd]; [|right; apply (ol_up _ _ _ _ _ O x e He Hc); right; right; auto].
           left. apply in_rev in Hd. apply K2 in Hd. destruct Hd as (e' & A1 & A2 & A3). assert (e = e') by (eapply (g_childq _ _ _ G0); eauto). subst e'. apply (g_disj _ _ _ G0 _ _ e); auto.
    + assert (todo g0 s R D1 < todo g0 s R D)%nat; [|lia]. unfold todo. apply (filter_drop _ _ _ W); auto.
      * now rewrite WD.
      * unfold D1. now rewrite upd_same.
      * intros x. unfold D1, upd. destruct (x =? W); [discriminate|auto].
    + exists g', D'. split; [exact W'|]. split; [exact H'|]. split; [exact R1|]. intros x Hx. rewrite (R2 x Hx). unfold D1. apply upd_other. intros ->. contradiction.
Qed.
Lemma walk_ok g n : P (fun _ => false) g [R] -> (S (Z.to_nat N) < n)%nat ->
  exists g' D', loop n g = Ret g' /\ P D' g' [] /\ (forall x, In x (vsof s R) -> D' x = true) /\ (forall x, ~ In x (vsof s R) -> D' x = false).
Proof.
  intros H Hn. apply (walk_loop n (fun _ => false) g [R] H).
  - constructor.
    + intros w [<-|[]]. split; [now left|auto].
    + repeat constructor. intros [].
    + right. now left.
    + intros x e _ Q. discriminate.
    + intros x e He Hc [Q|[Q|[]]]; [discriminate|]. exfalso. destruct (g_childu _ _ _ G0 _ _ He Hc) as (Q1 & _). rewrite <- Q in Q1. unfold GeoP.prim, GeoP.isroot in *. lia.
  - unfold todo. assert (Q : (length (vsof s R) <= S (Z.to_nat N))%nat).
    { unfold GeoP.vsof, GeoP.mem. cbn [length]. apply le_n_S. etransitivity; [apply filter_length_le|]. rewrite zrange_length. lia. }
    pose proof (filter_length_le (fun x => negb ((fun _ => false) x)) (vsof s R)). lia.
Qed.
End Walk.
