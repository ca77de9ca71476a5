(** * IsoKZ: the path from the X-Y path to the root of the component. *)
From Coq Require Import ZifyBool Permutation.
From Verif Require Import Base BaseP GraphRec GraphM GraphSpec GSimp LinkP GraphP GraphP2 GraphP3 GraphP6 GraphP7 ListM ListSpec DFSM DFSSpec DFSP TestM TestSpec TestP TestP3 EmbM EmbSpec EmbP EmbP2 FaceP GeoP EmbInv EmbStep EmbTree EmbWalk EmbOrient EmbJoin EmbDown EmbStor FanP IsoM IsoKM IsoP1 IsoO2 IsoX IsoX2 IsoX3 NcP PlV PlV3 PlI IsoKI IsoKX IsoKY IsoKY2.

Definition fl' (l : list (Z * list Z)) : list Z := concat (map (fun q => fst q :: snd q) l).
Lemma flat_rev l : flat (rev l) = fl' l.
Proof. unfold fl'. induction l as [|[t c] l IH]; [reflexivity|]. cbn [rev map concat fst snd]. rewrite flat_app. cbn [flat app]. now rewrite IH. Qed.
Lemma fl'_app l m : fl' (l ++ m) = fl' l ++ fl' m.
Proof. unfold fl'. now rewrite map_app, concat_app. Qed.
Lemma in_fl' l x : In x (fl' l) <-> exists q, In q l /\ (x = fst q \/ In x (snd q)).
Proof. unfold fl'. rewrite in_concat. split; [intros (k & Hk & Hx); apply in_map_iff in Hk; destruct Hk as (q & <- & Hq); exists q; split; [auto|destruct Hx; auto]|intros (q & Hq & Hx); exists (fst q :: snd q); split; [apply in_map_iff; eauto|destruct Hx as [->|Hx]; [now left|now right]]]. Qed.
Lemma fl'_nd l t c e : NoDup (fl' l) -> In (t, c) l -> In e c -> ~ In e (map fst l).
Proof.
  intros Nd Hq He Hf. apply in_map_iff in Hf. destruct Hf as ([t' c'] & E & Hf). cbn [fst] in E. subst t'. apply in_split in Hq. destruct Hq as (l1 & l2 & ->). rewrite fl'_app in Nd. cbn [fl' map concat fst snd] in Nd. fold (fl' l2) in Nd.
  apply in_app_iff in Hf. destruct Hf as [Hf|[Hf|Hf]].
  - apply (NoDup_app_disj _ _ e Nd); [apply in_fl'; exists (e, c'); auto|]. right. apply in_app_iff. now left.
  - injection Hf as -> ->. apply NoDup_app_r, NoDup_cons_iff in Nd. apply (proj1 Nd), in_app_iff. now left.
  - apply NoDup_app_r, NoDup_cons_iff in Nd. destruct Nd as [_ Nd]. apply (NoDup_app_disj _ _ e Nd He). apply in_fl'. exists (e, c'). auto.
Qed.
(** a place in a concatenation is a place in one of the parts *)
Lemma concat_split {T} (f : T -> list Z) Fs : forall X t Y, concat (map f Fs) = X ++ t :: Y -> exists F I1 I2 X' Y', In F Fs /\ f F = I1 ++ t :: I2 /\ X = X' ++ I1 /\ Y = I2 ++ Y'.
Proof.
  induction Fs as [|F Fs IH]; intros X t Y E; [destruct X; discriminate|]. cbn [map concat] in E.
  assert (K : (exists I2, f F = X ++ t :: I2 /\ Y = I2 ++ concat (map f Fs)) \/ exists X1, X = f F ++ X1 /\ concat (map f Fs) = X1 ++ t :: Y).
  { revert X E. generalize (f F) as k. induction k as [|q k IHk]; intros X E; [right; exists X; auto|]. destruct X as [|q' X].
    - left. cbn [app] in E. injection E as <- E. exists k. auto.
    - cbn [app] in E. injection E as <- E. destruct (IHk X E) as [(I2 & -> & Q)|(X1 & -> & Q)]; [left; exists I2; auto|right; exists X1; auto]. }
  destruct K as [(I2 & Q1 & Q2)|(X1 & Q1 & Q2)].
  - exists F, X, I2, [], (concat (map f Fs)). split; [now left|]. auto.
  - destruct (IH X1 t Y Q2) as (F' & I1 & I2 & X' & Y' & R1 & R2 & R3 & R4). exists F', I1, I2, (f F ++ X'), Y'. split; [now right|]. split; [auto|]. split; [rewrite Q1, R3, app_assoc; auto|auto].
Qed.
Lemma sub_skip_l A k l : sub k l -> sub k (A ++ l).
Proof. intros H. induction A; [exact H|]. cbn [app]. now constructor. Qed.
Lemma sub_one x l : In x l -> sub [x] l.
Proof. intros H. apply in_split in H. destruct H as (l1 & l2 & ->). apply sub_skip_l. constructor. constructor. Qed.
Lemma tl_in (l : list Z) x : In x (tl l) -> In x l.
Proof. destruct l; [intros []|now right]. Qed.
Lemma cprev_ex l x : In x l -> NoDup l -> exists u, In u l /\ cnext l u = x.
Proof.
  intros Hx Nd. apply in_split in Hx. destruct Hx as (l1 & l2 & ->). destruct (list_snoc l1) as [->|(k & z & ->)].
  - destruct (list_snoc l2) as [->|(k & z & ->)]; [exists x; split; [now left|]; cbn; now rewrite Z.eqb_refl|]. exists z. cbn [app]. split; [right; apply in_app_iff; right; now left|]. exact (cnext_split (x :: k) z [] Nd).
  - exists z. rewrite <- app_assoc in *. cbn [app] in *. split; [apply in_app_iff; right; now left|]. rewrite (cnext_split _ _ _ Nd). reflexivity.
Qed.

Section Z.
Variables (g0 : graph) (kids : Z -> list Z).
Hypothesis St : static g0 kids.
Local Notation N := (gN g0).
Local Notation p := (viParent (gVI g0)).
Local Notation prim := (prim (gN g0)).
Local Notation geo := (geo (gN g0) (viParent (gVI g0))).
Local Notation act := (act g0).
Local Notation vsof := (vsof (gN g0)).
Local Notation iface := (iface (gN g0)).
Local Notation rp := (rp g0).
Local Notation rpv := (rpv g0).
Local Notation marked := (marked g0).
Variables (a : est) (d : Z) (L : list Z).
Local Notation s := (eV a).
Local Notation R := (gN g0 + d).
Local Notation src := (src s).
Hypothesis G : geo NIL [] s.
Hypothesis Ad : act s d.
Hypothesis LW : Lw g0 s R L.
Hypothesis SO : stor g0 a.
Local Notation G0 := (g_base _ _ _ _ _ G).
Variables (D : Z -> bool) (b : est).
Hypothesis Tu : turned a D b.
Hypothesis DT : forall x, In x (vsof s R) -> D x = true.
Local Notation Ab := (adj (eV b)).
Hypothesis Lf : forall x e, In e (adj s x) -> nb s e <> x.
Variables (f : Z -> Z) (stk : list Z).
Local Notation b' := (setfp b f).
Local Notation fp := (fp a b).
Local Notation fch := (fch a b).

Lemma arc_rng e : In e (adj s (src e)) -> 2 <= e < gp_EdgeInUseIndexBound g0 /\ 2 <= twin e < gp_EdgeInUseIndexBound g0 /\ gp_EdgeInUseIndexBound g0 <= gp_EdgeIndexBound g0.
Proof. intros H. assert (A : arc a e) by (left; eauto). pose proof (so_used _ _ SO e A). pose proof (so_used _ _ SO _ (IsoP1.arc_twin g0 _ _ G0 A)). pose proof (so_cap _ _ SO). auto. Qed.
Lemma prev_ok g F t u : rpv g (setfl b' F) stk -> fp t u -> gp_GetPrevArcCircular g (twin t) = Ret u.
Proof.
  intros H (H1 & H2 & H3). pose proof (r_chains _ _ _ _ H) as C. cbn [setfl set_V v_fl eV adj setfp] in C.
  assert (Enb : forall z, enbr g z = nb s z) by (intros z; rewrite (r_nb _ _ _ _ H); cbn; now rewrite (tu_nb _ _ _ Tu)).
  assert (TW : twins_ok g Ab). { intros z e He. rewrite !Enb. pose proof (Kt_tw g0 a G D b Tu z e He) as [Q1 Q2]. rewrite (tu_nb _ _ _ Tu) in *. auto. }
  assert (Q : mk g (vflags g) (eflags g) (gstack g) = g) by (destruct g; reflexivity). rewrite <- Q. apply (prevc g Ab C TW). unfold pv. rewrite !Enb. split; [now apply (Ab_in a D b Tu)|]. auto.
Qed.
Lemma evis_ok g F ME e : rpv g (setfl b' F) stk -> marked (fl s) F ME -> In e (adj s (src e)) -> exists m, gp_GetEdgeVisited g e = Ret m /\ (m <> 0 <-> In e ME \/ In (twin e) ME).
Proof.
  intros H M He. destruct (arc_rng e He) as (Q1 & Q2 & Q3). unfold gp_GetEdgeVisited. rewrite rd_eflags_ok by (eapply inE_ok; [exact H|]; change (2 <= e < gp_EdgeIndexBound g0); lia). cbn [bind]. eexists. split; [reflexivity|]. rewrite (r_fl _ _ _ _ H). cbn. now apply M.
Qed.
(** ** Marking the path to the root *)
Lemma zmark : forall l e n g F ME, rpv g (setfl b' F) stk -> marked (fl s) F ME -> fch e l -> In e (adj s (src e)) -> (forall q, In q (e :: l) -> In q (adj s (src q)) /\ vtype g (src q) = 0 /\ src q <> R /\ 1 <= src q <= 2 * N) -> nb s (last l e) = R -> (forall q, In q (removelast (e :: l)) -> nb s q <> R) -> (length l + 1 < n)%nat ->
  exists g' F', z_mark_loop n g R (src e) e (twin e) = Ret (g', C_OK) /\ rpv g' (setfl b' F') stk /\ marked (fl s) F' ((e :: l) ++ ME) /\ forall z, vtype g' z = vtype g z.
Proof.
  induction l as [|u l IH]; intros e n g F ME H M C He Hq El Hr Hn; (destruct n as [|n]; [cbn [length] in Hn; lia|]); cbn [z_mark_loop];
    destruct (Hq e (or_introl eq_refl)) as (_ & T0 & NR & Rg); rewrite (eqb_false_neq _ _ NR); unfold gp_GetVertexObstructionType at 1; rewrite (rd_vflags_rpv g0 _ _ _ _ H Rg); cbn [bind]; fold (vtype g (src e)); rewrite T0; change (negb (0 =? 0)) with false; cbv iota;
    destruct (arc_rng e He) as (R1 & R2 & R3);
    (assert (En : gp_GetNeighbor g e = Ret (nb s e)) by (rewrite get_nbr by (eapply inE_ok; [exact H|]; change (2 <= e < gp_EdgeIndexBound g0); lia); rewrite (r_nb _ _ _ _ H); cbn; now rewrite (tu_nb _ _ _ Tu))); rewrite En; cbn [bind];
    destruct (mark_edge g0 g b' stk (fl s) F ME e H M ltac:(lia) ltac:(lia)) as (g2 & F2 & E2 & H2 & M2 & V2); change (gp_GetTwinArc e) with (twin e) in E2;
    (destruct (gp_SetEdgeVisited g e) as [g1| |] eqn:E1; [cbn [bind] in E2|discriminate|discriminate]); cbn [bind]; rewrite E2; cbn [bind];
    (assert (Rn : 1 <= nb s e <= 2 * N) by (destruct (g_twins _ _ _ G0 _ _ He) as [_ Q]; exact (g_out _ _ _ G0 _ _ Q)));
    unfold gp_SetVertexVisited; rewrite (rd_vflags_rpv g0 _ _ _ _ H2 Rn); cbn [bind]; destruct (rpv_wr_vflags g0 _ _ _ (nb s e) (Z.lor (vflags g2 (nb s e)) VERTEX_VISITED_MASK) H2 Rn) as (g3 & E3 & H3 & V3); rewrite E3; cbn [bind];
    (assert (T3 : forall z, vtype g3 z = vtype g z) by (intros z; unfold vtype; rewrite V3, V2; unfold upd; destruct (Z.eqb_spec z (nb s e)) as [->|Q]; [apply lor_other|auto])).
  - cbn [last] in El. destruct (g_twins _ _ _ G0 _ _ He) as [Q1 Q2]. apply (Ab_in a D b Tu) in Q2. destruct (cprev_ex _ _ Q2 (Ab_nd g0 a G D b Tu _)) as (u & U1 & U2).
    rewrite (prev_ok g3 F2 e u H3) by (split; auto). cbn [bind]. cbn [length] in Hn. destruct n as [|n]; [lia|]. cbn [z_mark_loop]. rewrite El, Z.eqb_refl. exists g3, F2. auto.
  - destruct C as [C1 C2]. rewrite (prev_ok g3 F2 e u H3 C1). cbn [bind]. change (gp_GetTwinArc u) with (twin u).
    assert (Hu : In u (adj s (src u))) by (apply Hq; right; now left). assert (Es : nb s e = src u). { destruct C1 as (_ & U2 & _). apply (Ab_in a D b Tu) in U2. now rewrite (arc_src N p s _ u G0 U2). }
    rewrite Es. destruct (IH u n g3 F2 (e :: ME) H3 M2 C2 Hu) as (g' & F' & E' & H' & M' & T').
    + intros q Hq'. rewrite T3. apply Hq. now right.
    + rewrite <- El. destruct l; [reflexivity|]. change (last (u :: z :: l) e) with (last (z :: l) e). clear. revert z. induction l; intros z; [reflexivity|apply IHl].
    + intros q Hq'. apply Hr. change (e :: u :: l) with ([e] ++ u :: l). rewrite removelast_app by discriminate. now right.
    + cbn [length] in Hn. lia.
    + exists g', F'. split; [exact E'|]. split; [auto|]. split; [|intros z; now rewrite T', T3]. eapply marked_mem; [exact M'|]. intros q. repeat (cbn [In app]; rewrite ?in_app_iff). tauto.
Qed.
(** ** Along the path, then out of it *)
Variables (Fs : list (list Z)).
Hypothesis HFs : Forall2 (iface s R) (tl (rot s R)) Fs.
Local Notation fls := (map (fun F => rev (tl (map src F))) Fs).
Hypothesis Hnc : nc (concat fls).
Variables (x w y : Z) (A0 A1 A2 A3 : list Z).
Hypothesis EL : L = A0 ++ x :: A1 ++ w :: A2 ++ y :: A3.
Hypothesis NW : ~ In w (concat fls).
Variables (ea eb : Z) (mid : list Z).
Hypothesis ER : rot s R = ea :: mid ++ [eb].
Hypothesis Ea : nb s ea = hd NIL L.
Hypothesis Eb : nb s eb = last L NIL.
Local Notation ws := (ws Fs ea).
Let WV := ws_vs g0 a d G Ad D b Tu DT Lf Fs HFs w NW ea eb mid ER.
Let WA := ws_arc g0 a d G Ad D b Tu DT Lf Fs HFs ea eb mid ER.
Let WN := ws_nd g0 a d G Ad D b Tu DT Lf Fs HFs w NW ea eb mid ER.

Section P.
Variables (t0 : Z) (c0 : list Z) (lu : list (Z * list Z)) (u : Z) (rest T1 : list Z) (l : list (Z * list Z)).
Hypothesis Elu : lu = l ++ [(u, rest)].
Hypothesis Ews : ws = T1 ++ t0 :: c0 ++ fl' lu.
Local Notation pa := (map fst lu).
Hypothesis Nq : NoDup (map (nb s) (t0 :: pa)).
Hypothesis Hsrc : forall l1 q q' l2, t0 :: pa = l1 ++ q :: q' :: l2 -> src q' = nb s q.
Lemma lu_ws : exists X, concat (map inner Fs) = X ++ fl' lu.
Proof. unfold IsoKY.ws in Ews. destruct T1 as [|q T1']; cbn [app] in Ews; injection Ews as -> E; [exists c0; exact E|exists (T1' ++ t0 :: c0); rewrite E, <- app_assoc; reflexivity]. Qed.
Lemma pa_ws t : In t (t0 :: pa) -> In t ws.
Proof. intros H. rewrite Ews. apply in_app_iff. right. destruct H as [<-|H]; [now left|]. right. apply in_app_iff. right. apply in_fl'. apply in_map_iff in H. destruct H as (q & <- & Hq). exists q. auto. Qed.
Lemma pa_src t : In t pa -> src t <> R.
Proof. intros H. apply in_split in H. destruct H as (l1 & l2 & E). destruct (list_snoc l1) as [->|(k & z & ->)]. - rewrite (Hsrc [] t0 t l2) by (now rewrite E). apply WV, pa_ws. now left. - rewrite (Hsrc (t0 :: k) z t l2) by (rewrite E, <- app_assoc; reflexivity). apply WV, pa_ws. right. rewrite E. apply in_app_iff. left. apply in_app_iff. right. now left. Qed.
Definition unm (e : Z) : Prop := ~ In e pa /\ ~ In (twin e) pa.
(** a face that the path enters *)
Lemma face_of F : In F Fs -> exists r r', In r (adj s R) /\ In r' (adj s R) /\ fch r' (inner F ++ [twin r]) /\ NoDup (nb s r' :: map (nb s) (inner F)) /\ nb s (twin r) = R /\ rev (tl (map src F)) = nb s r' :: map (nb s) (inner F) /\ (forall t, In t (inner F) -> In t (adj s (src t)) /\ src t <> R /\ nb s t <> R /\ In (nb s t) (vsof s R)).
Proof.
  intros H. destruct (F2_in _ _ _ _ HFs H) as (r & Hr & I). assert (Hr' : In r (adj s R)) by (apply in_rot; exact (tl_in _ _ Hr)).
  destruct (face_inner g0 a d G Ad D b Tu DT Lf r F Hr' I) as (r' & _ & X2 & _ & X4 & X5 & X6 & _ & X8). exists r, r'. split; [auto|]. split; [auto|]. split; [auto|]. split; [auto|]. split; [apply (g_twins _ _ _ G0 _ _ Hr')|]. auto.
Qed.
Lemma fch_split : forall l1 t l2 r, fch r (l1 ++ t :: l2) -> fp (last l1 r) t /\ fch t l2.
Proof.
  induction l1 as [|q l1 IH]; intros t l2 r H; cbn [app IsoKY.fch] in H; destruct H as [H1 H2]; [auto|]. destruct (IH t l2 q H2) as [Q1 Q2]. split; [|auto]. destruct l1; [exact Q1|]. replace (last (q :: z :: l1) r) with (last (z :: l1) q); [exact Q1|]. change (last (z :: l1) q = last (z :: l1) r). clear. revert z. induction l1; intros z; [reflexivity|apply IHl1].
Qed.
Lemma fp_arc t e : fp t e -> src e = nb s t /\ In e (adj s (src e)).
Proof. intros (_ & H & _). apply (Ab_in a D b Tu) in H. rewrite (arc_src N p s _ e G0 H). auto. Qed.
(** the arc after [t] in the face is not on the path, unless it is the next arc of the path *)
Lemma next_unm F r r' I1 t I2 pre c suf : In F Fs -> fch r' (inner F ++ [twin r]) -> NoDup (nb s r' :: map (nb s) (inner F)) -> In r (adj s R) -> nb s (twin r) = R -> inner F = I1 ++ t :: I2 -> lu = pre ++ (t, c) :: suf -> (c = [] -> suf = [] \/ I2 = []) -> (exists Y, c ++ fl' suf = I2 ++ Y) ->
  unm (hd (twin r) I2).
Proof.
  intros HF C Nd Hr Er EI Elu' Hc (Y & EY). assert (Ht : In t pa) by (rewrite Elu', map_app; apply in_app_iff; right; now left).
  destruct I2 as [|e I2]; cbn [hd].
  - split; intros Q; [apply (proj1 (proj2 (WV _ (pa_ws _ (or_intror Q)))) Er)|]. rewrite twin_invol in Q. apply (pa_src r Q). exact (arc_src N p s _ r G0 Hr).
  - rewrite EI, <- app_assoc in C. cbn [app] in C. destruct (fch_split _ _ _ _ C) as [P1 [P2 _]]. destruct (fp_arc _ _ P1) as [S1 _]. destruct (fp_arc _ _ P2) as [S2 _]. split; intros Q.
    + assert (Ec : In e c \/ c = [] /\ suf <> []). { destruct c as [|e' c]; [|left; cbn [app] in EY; injection EY as -> _; now left]. right. split; [auto|]. intros ->. discriminate. }
      destruct Ec as [Ec|[-> Ns]]; [|destruct (Hc eq_refl); [congruence|discriminate]]. refine (fl'_nd lu t c e _ _ Ec Q).
      * pose proof WN as Nw. rewrite Ews in Nw. apply NoDup_app_r in Nw. change (t0 :: c0 ++ fl' lu) with ((t0 :: c0) ++ fl' lu) in Nw. now apply NoDup_app_r in Nw.
      * rewrite Elu'. apply in_app_iff. right. now left.
    + assert (Et : twin e = t). { assert (Ne : nb s (twin e) = nb s t) by exact S2. clear - Nq Q Ht Ne. apply NoDup_cons_iff in Nq. destruct Nq as [_ Nd]. clear Nq. revert Nd Q Ht. induction pa as [|q k IH]; [intros _ []|]. intros Nd [Q|Q] [H|H]; [congruence| | |].
        - exfalso. apply NoDup_cons_iff in Nd. apply (proj1 Nd). cbn [map] in *. rewrite Q, Ne. now apply in_map.
        - exfalso. apply NoDup_cons_iff in Nd. apply (proj1 Nd). cbn [map] in *. rewrite H, <- Ne. now apply in_map.
        - apply IH; auto. now apply NoDup_cons_iff in Nd. }
      assert (Ne : nb s e = nb s (last I1 r')). { rewrite <- S1, <- Et. unfold PlV.src. now rewrite twin_invol. }
      rewrite EI in Nd. destruct (list_snoc I1) as [->|(k & z & ->)].
      * cbn [last] in Ne. apply NoDup_cons_iff in Nd. apply (proj1 Nd). rewrite <- Ne. cbn [app map]. right. now left.
      * rewrite last_snoc in Ne. apply NoDup_cons_iff in Nd. destruct Nd as [_ Nd]. rewrite map_app in Nd. apply (NoDup_app_disj _ _ (nb s z) Nd); [apply in_map, in_app_iff; right; now left|]. rewrite <- Ne. cbn [map]. right. now left.
Qed.
(** Where the loop leaves the path: at [py], or at an inner vertex. *)
Definition exitE (F : list Z) (e : Z) (I1 : list Z) (suf : list (Z * list Z)) : Prop := src e = nb s u /\ exists I2, inner F = I1 ++ map fst suf ++ I2.
Definition exitD (F : list Z) (r e : Z) : Prop := exists I1 t I2 pre c q suf, inner F = I1 ++ t :: I2 /\ lu = pre ++ (t, c) :: q :: suf /\ e = hd (twin r) I2 /\ (I2 = [] \/ exists e' c', c = I2 ++ e' :: c').
Hypothesis Hcl : forall t c, In (t, c) l -> c = [] \/ nb s (last c NIL) = nb s t.
Lemma zexit F r r' : In F Fs -> In r (adj s R) -> fch r' (inner F ++ [twin r]) -> NoDup (nb s r' :: map (nb s) (inner F)) -> nb s (twin r) = R -> forall suf pre t c I1 I2 g F' n, rpv g (setfl b' F') stk -> marked (fl s) F' pa -> lu = pre ++ (t, c) :: suf -> inner F = I1 ++ t :: I2 -> (exists Y, c ++ fl' suf = I2 ++ Y) -> (length suf + 1 < n)%nat ->
  exists e, z_exit_loop n g t = Ret e /\ unm e /\ In e (adj s (src e)) /\ (exitE F e I1 ((t, c) :: suf) \/ exitD F r e).
Proof.
  intros HF Hr C Nd Er. induction suf as [|[t' c'] suf IH]; intros pre t c I1 I2 g F' n H M Elu' EI Y Hn; (destruct n as [|n]; [cbn [length] in Hn; lia|]); cbn [z_exit_loop].
  - assert (Ht : In t pa) by (rewrite Elu', map_app; apply in_app_iff; right; now left). destruct (evis_ok g F' pa t H M (WA _ (pa_ws _ (or_intror Ht)))) as (m & Em & Hm). rewrite Em. cbn [bind]. assert (Hm' : m <> 0) by tauto. rewrite (eqb_false_neq _ _ Hm').
    change (gp_GetTwinArc t) with (twin t). rewrite EI, <- app_assoc in C. cbn [app] in C. destruct (fch_split _ _ _ _ C) as [P1 P2]. set (e := hd (twin r) I2). assert (P3 : fp t e) by (unfold e; destruct I2; cbn [app hd] in *; apply P2). destruct (fp_arc _ _ P3) as [S3 A3'].
    assert (Un : unm e). { unfold e. refine (next_unm F r r' I1 t I2 pre c [] HF _ Nd Hr Er EI Elu' _ Y); [rewrite EI, <- app_assoc; exact C|auto]. }
    rewrite (prev_ok g F' t e H P3). cbn [bind]. destruct n as [|n]; [cbn [length] in Hn; lia|]. cbn [z_exit_loop]. destruct (evis_ok g F' pa e H M A3') as (m2 & Em2 & Hm2). rewrite Em2. cbn [bind]. assert (m2 = 0) by (destruct Un; destruct (Z.eq_dec m2 0); tauto). subst m2. change (0 =? 0) with true. cbv iota.
    exists e. split; [reflexivity|]. split; [auto|]. split; [auto|]. left. split; [|exists I2; exact EI]. rewrite S3. rewrite Elu in Elu'. apply app_inj_tail in Elu'. destruct Elu' as [_ Q]. now injection Q as -> _.
  - assert (Ht : In t pa) by (rewrite Elu', map_app; apply in_app_iff; right; now left). destruct (evis_ok g F' pa t H M (WA _ (pa_ws _ (or_intror Ht)))) as (m & Em & Hm). rewrite Em. cbn [bind]. assert (Hm' : m <> 0) by tauto. rewrite (eqb_false_neq _ _ Hm').
    change (gp_GetTwinArc t) with (twin t). assert (C' := C). rewrite EI, <- app_assoc in C'. cbn [app] in C'. destruct (fch_split _ _ _ _ C') as [P1 P2]. set (e := hd (twin r) I2). assert (P3 : fp t e) by (unfold e; destruct I2; cbn [app hd] in *; apply P2). destruct (fp_arc _ _ P3) as [S3 A3'].
    rewrite (prev_ok g F' t e H P3). cbn [bind]. destruct Y as (Y & EY).
    assert (Dc : (c = [] /\ exists I3, I2 = t' :: I3) \/ (c = [] -> (t', c') :: suf = [] \/ I2 = [])). { destruct c as [|q c]; [|right; discriminate]. destruct I2 as [|e2 I3]; [right; auto|]. left. split; [auto|]. cbn [app fl' map concat fst] in EY. injection EY as -> _. eauto. }
    destruct Dc as [(-> & I3 & ->)|Dc].
    + cbn [hd] in e. subst e. cbn [app fl' map concat fst snd] in EY. injection EY as EY. destruct (IH (pre ++ [(t, [])]) t' c' (I1 ++ [t]) I3 g F' n H M) as (e & E1 & E2 & E3 & E4); [rewrite <- app_assoc; exact Elu'|rewrite <- app_assoc; exact EI|exists Y; exact EY|cbn [length] in Hn; lia|].
      exists e. split; [auto|]. split; [auto|]. split; [auto|]. destruct E4 as [[E4 (I4 & E5)]|E4]; [left; split; [auto|]; exists I4; rewrite E5, <- app_assoc; reflexivity|right; exact E4].
    + assert (Un : unm e) by (refine (next_unm F r r' I1 t I2 pre c ((t', c') :: suf) HF C Nd Hr Er EI Elu' Dc (ex_intro _ Y EY))).
      destruct n as [|n]; [cbn [length] in Hn; lia|]. cbn [z_exit_loop]. destruct (evis_ok g F' pa e H M A3') as (m2 & Em2 & Hm2). rewrite Em2. cbn [bind]. assert (m2 = 0) by (destruct Un; destruct (Z.eq_dec m2 0); tauto). subst m2. change (0 =? 0) with true. cbv iota.
      exists e. split; [reflexivity|]. split; [auto|]. split; [auto|]. right. exists I1, t, I2, pre, c, (t', c'), suf. split; [auto|]. split; [auto|]. split; [reflexivity|]. destruct I2 as [|e2 I2]; [auto|]. right.
      (* the rest of the face stays before the end of [c] *)
      assert (Nc : c <> []) by (intros Q; destruct (Dc Q); discriminate). assert (Hl : In (t, c) l). { rewrite Elu in Elu'. assert (Q : exists suf', (t', c') :: suf = suf' ++ [(u, rest)]). { destruct (list_snoc ((t', c') :: suf)) as [Q|(k & z & Q)]; [discriminate|]. rewrite Q in Elu'. change (pre ++ (t, c) :: k ++ [z]) with (pre ++ ((t, c) :: k) ++ [z]) in Elu'. rewrite app_assoc in Elu'. apply app_inj_tail in Elu'. destruct Elu' as [_ <-]. eauto. } destruct Q as (suf' & Q). rewrite Q in Elu'. change (pre ++ (t, c) :: suf' ++ [(u, rest)]) with (pre ++ ((t, c) :: suf') ++ [(u, rest)]) in Elu'. rewrite app_assoc in Elu'. apply app_inj_tail in Elu'. destruct Elu' as [-> _]. apply in_app_iff. right. now left. }
      destruct (Hcl t c Hl) as [Q|Q]; [congruence|]. destruct (list_snoc c) as [->|(k & z & ->)]; [congruence|]. rewrite last_snoc in Q. rewrite <- app_assoc in EY. change (k ++ z :: fl' ((t', c') :: suf) = (e2 :: I2) ++ Y) in EY.
      assert (Hz : ~ In z (e2 :: I2)). { intros Hz. rewrite EI in Nd. apply NoDup_cons_iff in Nd. destruct Nd as [_ Nd]. rewrite map_app in Nd. apply NoDup_app_r in Nd. cbn [map] in Nd. apply NoDup_cons_iff in Nd. apply (proj1 Nd). rewrite <- Q. change (nb s e2 :: map (nb s) I2) with (map (nb s) (e2 :: I2)). now apply in_map. }
      clear - EY Hz. revert EY Hz. generalize (e2 :: I2) as i. generalize (fl' ((t', c') :: suf)) as j. intros j i. revert i. induction k as [|q k IH]; intros i EY Hz.
      * destruct i as [|q i]; [exists z, []; reflexivity|]. cbn [app] in EY. injection EY as -> _. exfalso. apply Hz. now left.
      * destruct i as [|q' i]; [exists q, (k ++ [z]); reflexivity|]. cbn [app] in EY. injection EY as -> EY. destruct (IH i EY) as (e' & c'' & Q); [intros Q; apply Hz; now right|]. exists e', c''. cbn [app]. now rewrite Q.
Qed.

(** the arc of the path at its first vertex *)
Hypothesis Hlu : lu <> [].
Local Notation px := (nb s t0).
Local Notation e1 := (fst (hd (NIL, []) lu)).
Lemma e1_in : exists k, pa = e1 :: k.
Proof. destruct lu as [|[q c] k]; [congruence|]. cbn. eauto. Qed.
Lemma e1_src : src e1 = px /\ In e1 (adj s px).
Proof. destruct e1_in as (k & E). assert (Q : src e1 = px) by (apply (Hsrc [] t0 e1 k); now rewrite E). split; [auto|]. rewrite <- Q. apply WA, pa_ws. right. rewrite E. now left. Qed.
Lemma src_uniq q : In q pa -> src q = px -> q = e1.
Proof.
  intros Hq Q. destruct e1_in as (k & E). rewrite E in Hq. destruct Hq as [Hq|Hq]; [auto|]. exfalso. apply in_split in Hq. destruct Hq as (k1 & k2 & ->).
  assert (In px (map (nb s) pa)); [|apply NoDup_cons_iff in Nq; now apply (proj1 Nq)]. destruct (list_snoc k1) as [->|(k3 & z & ->)].
  - rewrite <- Q, (Hsrc [t0] e1 q k2) by (now rewrite E). apply in_map. rewrite E. now left.
  - rewrite <- Q, (Hsrc (t0 :: e1 :: k3) z q k2) by (rewrite E, <- app_assoc; reflexivity). apply in_map. rewrite E. right. apply in_app_iff. left. apply in_app_iff. right. now left.
Qed.
Lemma px_arc g F : rpv g (setfl b' F) stk -> marked (fl s) F pa -> 1 <= px <= 2 * N -> exists la fi, gp_GetLastArc g px = Ret la /\ gp_GetFirstArc g px = Ret fi /\ px_arc_loop (efuel g) g la fi = Ret e1.
Proof.
  intros H M Rg. exists (last (Ab px) NIL), (hd NIL (Ab px)). split; [exact (rp_last _ _ _ _ _ H Rg)|]. split; [exact (rp_first _ _ _ _ _ H Rg)|]. destruct e1_src as [S1 A1']. destruct e1_in as (k & E).
  assert (Ch := r_chains _ _ _ _ H). cbn [setfl set_V v_fl eV adj setfp] in Ch.
  pose proof (Ab_nd g0 a G D b Tu px) as Nd. assert (Hi : In e1 (Ab px)) by (apply (Ab_in a D b Tu); exact A1'). assert (Ln : (length (Ab px) < efuel g)%nat) by (apply (adj_len_chains _ _ px Ch)).
  apply in_split in Hi. destruct Hi as (l1 & l2 & Ei). assert (K : forall l2 l3 n, Ab px = (l1 ++ e1 :: l2) ++ l3 -> (length l2 < n)%nat -> px_arc_loop n g (last (l1 ++ e1 :: l2) NIL) (hd NIL (Ab px)) = Ret e1).
  { clear l2 Ei. intros l2. induction l2 as [|z l2 IH] using rev_ind; intros l3 n Ei Hn; (destruct n as [|n]; [cbn [length] in Hn; lia|]); cbn [px_arc_loop].
    - rewrite last_snoc. destruct (e1 =? hd NIL (Ab px)); [reflexivity|]. destruct (evis_ok g F pa e1 H M) as (m & Em & Hm); [rewrite S1; exact A1'|]. rewrite Em. cbn [bind]. assert (m <> 0) by (apply Hm; left; rewrite E; now left). rewrite (eqb_false_neq m 0) by auto. reflexivity.
    - change (l1 ++ e1 :: l2 ++ [z]) with (l1 ++ (e1 :: l2) ++ [z]) in *. rewrite app_assoc in *. rewrite last_snoc. rewrite <- app_assoc in Ei. cbn [app] in Ei.
      assert (Hz : In z (Ab px)) by (rewrite Ei; apply in_app_iff; right; now left). assert (Hz' : In z (adj s px)) by (now apply (Ab_in a D b Tu)). assert (Sz : src z = px) by (exact (arc_src N p s _ z G0 Hz')).
      assert (Nz : z <> e1). { intros ->. rewrite Ei in Nd. apply (NoDup_app_disj _ _ e1 Nd); [apply in_app_iff; right; now left|now left]. }
      rewrite eqb_false_neq. 2:{ intros Q. rewrite Ei in Nd. apply (NoDup_app_disj _ _ z Nd); [|now left]. rewrite Ei in Q. destruct l1; cbn [app hd] in Q; rewrite Q; now left. }
      destruct (evis_ok g F pa z H M) as (m & Em & Hm); [rewrite Sz; exact Hz'|]. rewrite Em. cbn [bind]. assert (m = 0).
      { destruct (Z.eq_dec m 0) as [Q|Q]; [auto|]. apply Hm in Q. exfalso. destruct Q as [Q|Q]; [apply Nz; now apply src_uniq|]. apply NoDup_cons_iff in Nq. apply (proj1 Nq). rewrite <- Sz. change (src z) with (nb s (twin z)). now apply in_map. }
      subst m. change (negb (0 =? 0)) with false. cbv iota. rewrite get_prev by (eapply inE_ok; [exact H|]; destruct (arc_rng z ltac:(now rewrite Sz)) as (? & ? & ?); change (2 <= z < gp_EdgeIndexBound g0); lia). cbn [bind].
      destruct (chains_links g Ab px (l1 ++ e1 :: l2) z l3 Ch Ei) as [E1' _]. rewrite E1'. apply (IH (z :: l3)); [exact Ei|]. rewrite app_length in Hn. cbn [length] in Hn. lia. }
  specialize (K l2 [] (efuel g)). rewrite <- Ei, app_nil_r in K. apply K; [reflexivity|]. rewrite Ei, app_length in Ln. cbn [length] in Ln. lia.
Qed.

(** ** The whole function *)
Fixpoint achain (u : Z) (k : list Z) (v : Z) : Prop := match k with [] => u = v | e :: k => In e (adj s u) /\ achain (nb s e) k v end.
Record zpath (z : Z) (Zp : list Z) : Prop := {
  zp_at : exists q1 t q2, pa = q1 ++ t :: q2 /\ q2 <> [] /\ z = nb s t;
  zp_ch : achain z Zp R; zp_nd : NoDup (map (nb s) Zp);
  zp_in : forall e, In e (removelast Zp) -> In (nb s e) (mem N s R) /\ nb s e <> R /\ ~ In (nb s e) L /\ ~ In (nb s e) (map (nb s) (t0 :: pa)) }.
Definition zmid : Prop := exists F k1 k2, In F Fs /\ rev (tl (map src F)) = k1 ++ px :: map (nb s) pa ++ k2.
Hypothesis Hout : forall pre t c suf e, lu = pre ++ (t, c) :: suf -> suf <> [] -> In e c -> ~ In (nb s e) (map (nb s) (t0 :: map fst pre)).
Hypothesis Hint : forall e, In e (c0 ++ fl' l) -> nb s e = px \/ ~ In (nb s e) (R :: L).
Hypothesis Hpx : prim px.
Lemma fch_ach : forall k t w0, fch t k -> nb s (last k t) = w0 -> achain (nb s t) k w0.
Proof.
  induction k as [|e k IH]; intros t w0 C El; [exact El|]. destruct C as [C1 C2]. destruct (fp_arc _ _ C1) as [S1 A1']. cbn [achain]. split; [now rewrite <- S1|]. apply IH; [auto|]. rewrite <- El. destruct k; [reflexivity|]. change (last (e :: z :: k) t) with (last (z :: k) t). f_equal. clear. revert z. induction k; intros z; [reflexivity|apply IHk].
Qed.
Lemma nd_len k : k <> [] -> NoDup k -> (forall e, In e k -> In e (adj s (src e))) -> (length k + 2 < S (Z.to_nat (gp_EdgeIndexBound g0)))%nat.
Proof.
  intros Ne Nd Hk. assert (Ev : gp_EdgeInUseIndexBound g0 <= gp_EdgeIndexBound g0) by (apply (so_cap _ _ SO)). destruct k as [|q k]; [congruence|].
  assert (Q : (length (q :: k) <= length (map (fun i => Z.of_nat i) (seq 2 (Z.to_nat (gp_EdgeInUseIndexBound g0) - 2))))%nat).
  { apply NoDup_incl_length; [auto|]. intros e He. destruct (arc_rng e (Hk e He)) as (Q1 & _). apply in_map_iff. exists (Z.to_nat e). split; [lia|]. apply in_seq. lia. }
  rewrite map_length, seq_length in Q. destruct (arc_rng q (Hk q (or_introl eq_refl))) as (Q1 & _). lia.
Qed.
Lemma nd_of k : NoDup (map (nb s) k) -> NoDup k.
Proof. induction k as [|q k IH]; intros Nd; [constructor|]. cbn [map] in Nd. apply NoDup_cons_iff in Nd. constructor; [intros Q; apply (proj1 Nd); now apply in_map|now apply IH]. Qed.
Lemma kz g F : rpv g (setfl b' F) stk -> marked (fl s) F pa -> (forall z, In z (vsof s R) -> ~ In z L -> vtype g z = 0) ->
  (_MarkZtoRPath g R px (nb s u) = Ret (g, C_OK, NIL) /\ zmid) \/
  exists g' F' z Zp, _MarkZtoRPath g R px (nb s u) = Ret (g', C_OK, z) /\ rpv g' (setfl b' F') stk /\ marked (fl s) F' (Zp ++ pa) /\ (forall y, vtype g' y = vtype g y) /\ zpath z Zp.
Proof.
  intros H M T0. unfold _MarkZtoRPath. destruct (px_arc g F H M) as (la & fi & E1 & E2 & E3); [unfold GeoP.prim in Hpx; lia|]. rewrite E1. cbn [bind]. rewrite E2. cbn [bind]. rewrite E3. cbn [bind].
  destruct e1_src as [S1 A1']. destruct e1_in as (k & Ek). destruct (evis_ok g F pa e1 H M) as (m & Em & Hm); [rewrite S1; exact A1'|]. rewrite Em. cbn [bind]. assert (Hm' : m <> 0) by (apply Hm; left; rewrite Ek; now left). rewrite (eqb_false_neq m 0) by auto.
  destruct lu_ws as (X & EX). assert (El : exists q1 c1 lu', lu = (q1, c1) :: lu') by (destruct lu as [|[q1 c1] lu']; [congruence|eauto]). destruct El as (q1 & c1 & lu' & El).
  assert (Eq1 : e1 = q1) by (now rewrite El). rewrite Eq1 in *. assert (EX0 := EX). rewrite El in EX0. cbn [fl' map concat fst snd app] in EX0. fold (fl' lu') in EX0.
  destruct (concat_split _ _ _ _ _ EX0) as (FF & I1 & I2 & X' & Y' & HF & EI & EX' & EY). destruct (face_of FF HF) as (r & r' & P1 & P2 & P3 & P4 & P5 & P6 & P7).
  assert (Ef : efuel g = S (Z.to_nat (gp_EdgeIndexBound g0))) by (unfold efuel; f_equal; f_equal; pose proof (k_cap _ _ (r_keeps _ _ _ _ H)) as Q; unfold gp_EdgeIndexBound in *; cbn in Q; lia).
  assert (Nw : NoDup pa) by (apply NoDup_cons_iff in Nq; apply nd_of, Nq).
  assert (Lp : (length lu' + 1 < efuel g)%nat). { rewrite Ef. assert (Q : (length pa + 2 < S (Z.to_nat (gp_EdgeIndexBound g0)))%nat) by (apply nd_len; [rewrite Ek; discriminate|auto|intros e He; apply WA, pa_ws; now right]). rewrite El in Q. cbn [map length] in Q. rewrite map_length in Q. lia. }
  destruct (zexit FF r r' HF P1 P3 P4 P5 lu' [] q1 c1 I1 I2 g F (efuel g) H M El EI (ex_intro _ Y' EY) Lp) as (e & Ee & Un & Ae & Ex). rewrite Ee. cbn [bind]. change (gp_GetTwinArc e) with (twin e).
  destruct (arc_rng e Ae) as (Re1 & Re2 & Re3).
  assert (En : gp_GetNeighbor g (twin e) = Ret (src e)) by (rewrite get_nbr by (eapply inE_ok; [exact H|]; change (2 <= twin e < gp_EdgeIndexBound g0); lia); rewrite (r_nb _ _ _ _ H); cbn; now rewrite (tu_nb _ _ _ Tu)). rewrite En. cbn [bind].
  destruct Ex as [[Es (I4 & E4)]|Ex].
  - left. rewrite Es, Z.eqb_refl. split; [reflexivity|]. rewrite <- El in E4. exists FF. rewrite P6, E4. assert (Q : px = nb s (last I1 r')).
    { rewrite <- S1. rewrite EI, <- app_assoc in P3. cbn [app] in P3. destruct (fch_split _ _ _ _ P3) as [Q _]. symmetry. now destruct (fp_arc _ _ Q) as [-> _]. }
    rewrite !map_app. destruct (list_snoc I1) as [->|(k3 & z & ->)].
    + exists [], (map (nb s) I4). split; [auto|]. rewrite Q. reflexivity.
    + exists (nb s r' :: map (nb s) k3), (map (nb s) I4). split; [auto|]. rewrite Q, last_snoc, map_app, <- app_assoc. reflexivity.
  - right. destruct Ex as (J1 & t & J2 & pre & c & qq & suf & F1 & F2 & F3 & F4). 
    assert (Ht : In t pa) by (rewrite F2, map_app; apply in_app_iff; right; now left).
    assert (Tl : In (t, c) l). { destruct (list_snoc (qq :: suf)) as [Q|(k3 & z & Q)]; [discriminate|]. rewrite Q in F2. rewrite Elu in F2. change (pre ++ (t, c) :: k3 ++ [z]) with (pre ++ ((t, c) :: k3) ++ [z]) in F2. rewrite app_assoc in F2. apply app_inj_tail in F2. destruct F2 as [-> _]. apply in_app_iff. right. now left. }
    assert (C2 := P3). rewrite F1, <- app_assoc in C2. cbn [app] in C2. destruct (fch_split _ _ _ _ C2) as [_ C3].
    assert (Se : src e = nb s t) by (rewrite F3; destruct J2; cbn [app hd] in *; destruct C3 as [C3 _]; now destruct (fp_arc _ _ C3)).
    assert (Nu : nb s t <> nb s u). { intros Q. apply NoDup_cons_iff in Nq. destruct Nq as [_ Nd]. rewrite F2 in Elu. destruct (list_snoc (qq :: suf)) as [Q'|(k3 & z & Q')]; [discriminate|]. rewrite Q' in Elu. change (pre ++ (t, c) :: k3 ++ [z]) with (pre ++ ((t, c) :: k3) ++ [z]) in Elu. rewrite app_assoc in Elu. apply app_inj_tail in Elu. destruct Elu as [_ Ez]. assert (Epa : pa = map fst pre ++ t :: map fst k3 ++ [u]) by (rewrite F2, Q', Ez, map_app; cbn [map fst]; rewrite map_app; reflexivity). change (NoDup (map (nb s) pa)) in Nd. rewrite Epa, map_app in Nd. apply NoDup_app_r in Nd. cbn [map] in Nd. apply NoDup_cons_iff in Nd. apply (proj1 Nd). rewrite map_app. apply in_app_iff. right. left. now rewrite Q. }
    rewrite Se, (eqb_false_neq _ _ Nu). set (Zp := J2 ++ [twin r]) in *.
    assert (Ez : exists l0, Zp = e :: l0) by (unfold Zp; rewrite F3; destruct J2; cbn; eauto). destruct Ez as (l0 & Ez).
    assert (IJ : forall q, In q J2 -> In q c) by (intros q Hq; destruct F4 as [->|(e' & c' & ->)]; [destruct Hq|apply in_app_iff; now left]).
    assert (Hfl : forall q, In q (t :: J2) -> In q (fl' l)) by (intros q [<-|Hq]; apply in_fl'; exists (t, c); cbn; auto).
    assert (Npx : forall q, In q (t :: J2) -> nb s q <> px). { intros q [<-|Hq]; [intros Q; apply NoDup_cons_iff in Nq; apply (proj1 Nq); rewrite <- Q; now apply in_map|]. intros Q. apply (Hout pre t c (qq :: suf) q F2 ltac:(discriminate) (IJ q Hq)). rewrite Q. now left. }
    assert (NL : forall q, In q (t :: J2) -> ~ In (nb s q) (R :: L)) by (intros q Hq; destruct (Hint q ltac:(apply in_app_iff; right; now apply Hfl)) as [Q|Q]; [destruct (Npx q Hq Q)|auto]).
    assert (Jin : forall q, In q (t :: J2) -> In q (inner FF)) by (intros q Hq; rewrite F1; apply in_app_iff; now right).
    assert (ZT : forall q, In q (e :: l0) -> In q (adj s (src q)) /\ exists q', In q' (t :: J2) /\ src q = nb s q').
    { rewrite <- Ez. intros q Hq. assert (Hq0 := Hq). apply in_split in Hq. destruct Hq as (z1 & z2 & Eq). fold Zp in C3. rewrite Eq in C3. destruct (fch_split _ _ _ _ C3) as [C4 _]. destruct (fp_arc _ _ C4) as [Q1 Q2]. split; [auto|]. exists (last z1 t). split; [|auto]. destruct (list_snoc z1) as [->|(k3 & z & ->)]; [now left|]. rewrite last_snoc. right. unfold Zp in Eq.
      destruct (list_snoc z2) as [->|(k4 & z' & ->)]; [apply app_inj_tail in Eq; destruct Eq as [-> _]; apply in_app_iff; right; now left|]. change ((k3 ++ [z]) ++ q :: k4 ++ [z']) with ((k3 ++ [z]) ++ (q :: k4) ++ [z']) in Eq. rewrite app_assoc in Eq. apply app_inj_tail in Eq. destruct Eq as [-> _]. apply in_app_iff. left. apply in_app_iff. right. now left. }
    assert (NdJ : NoDup (map (nb s) (t :: J2))) by (rewrite F1 in P4; apply NoDup_cons_iff in P4; destruct P4 as [_ P4]; rewrite map_app in P4; now apply NoDup_app_r in P4).
    assert (Ll : (length l0 + 1 < efuel g)%nat). { rewrite Ef. assert (Q : (length (t :: J2) + 2 < S (Z.to_nat (gp_EdgeIndexBound g0)))%nat) by (apply nd_len; [discriminate|now apply nd_of|intros q Hq; now apply P7, Jin]). assert (Q' : length Zp = S (length l0)) by (now rewrite Ez). unfold Zp in Q'. rewrite app_length in Q'. cbn [length] in *. lia. }
    assert (Lst : last l0 e = twin r) by (transitivity (last Zp NIL); [rewrite Ez; destruct l0; [reflexivity|]; change (last (e :: z :: l0) NIL) with (last (z :: l0) NIL); clear; revert z; induction l0; intros z; [reflexivity|apply IHl0]|unfold Zp; apply last_snoc]).
    assert (Erl : removelast (e :: l0) = J2) by (rewrite <- Ez; unfold Zp; apply removelast_last).
    destruct (zmark l0 e (efuel g) g F pa H M) as (g' & F' & E5 & H5 & M5 & T5).
    + fold Zp in C3. rewrite Ez in C3. apply C3.
    + exact Ae.
    + intros q Hq. destruct (ZT q Hq) as (Q1 & q' & Q2 & Q3). split; [auto|]. rewrite Q3. pose proof (NL q' Q2) as Q4. split; [apply T0; [now apply P7, Jin|intros Q; apply Q4; now right]|]. split; [intros Q; apply Q4; now left|]. rewrite <- Q3. exact (g_out _ _ _ G0 _ _ Q1).
    + now rewrite Lst.
    + rewrite Erl. intros q Hq. apply P7, Jin. now right.
    + exact Ll.
    + rewrite Se in E5. rewrite E5. cbn [bind]. exists g', F', (nb s t), Zp. split; [reflexivity|]. split; [auto|]. split; [rewrite Ez; exact M5|]. split; [auto|]. constructor.
      * exists (map fst pre), t, (map fst (qq :: suf)). split; [rewrite F2, map_app; reflexivity|]. split; [discriminate|reflexivity].
      * apply fch_ach; [exact C3|]. unfold Zp. now rewrite last_snoc.
      * unfold Zp. rewrite map_app. cbn [map]. rewrite P5. apply NoDup_cons_iff in NdJ. apply (Permutation_NoDup (Permutation_cons_append _ _)). constructor; [|apply NdJ]. intros Q. apply in_map_iff in Q. destruct Q as (q & Q1 & Q2). apply (NL q); [now right|]. left. now rewrite Q1.
      * rewrite Ez, Erl. intros q Hq. assert (Hq' : In q (t :: J2)) by (now right). pose proof (NL q Hq') as NL'. destruct (P7 q (Jin q Hq')) as (_ & _ & Q1 & Q2). split; [|split; [auto|split; [intros Q; apply NL'; now right|]]].
        { apply WV. rewrite Ews. apply in_app_iff. right. right. apply in_app_iff. right. apply in_fl'. exists (t, c). split; [rewrite F2; apply in_app_iff; right; now left|right; now apply IJ]. }
        intros Q. change (In (nb s q) (nb s t0 :: map (nb s) pa)) in Q. assert (Nt : nb s q <> nb s t) by (intros Q'; cbn [map] in NdJ; apply NoDup_cons_iff in NdJ; apply (proj1 NdJ); rewrite <- Q'; now apply in_map).
        rewrite F2, !map_app in Q. change (In (nb s q) (nb s t0 :: map (nb s) (map fst pre) ++ nb s t :: map (nb s) (map fst (qq :: suf)))) in Q.
        assert (Q' : In (nb s q) (map (nb s) (map fst (qq :: suf)))). { pose proof (Hout pre t c (qq :: suf) q F2 ltac:(discriminate) (IJ q Hq)) as Ho. destruct Q as [Q|Q]; [destruct Ho; now left|]. apply in_app_iff in Q. destruct Q as [Q|[Q|Q]]; [destruct Ho; now right|congruence|auto]. }
        apply in_map_iff in Q'. destruct Q' as (t' & Et' & Ht'). apply in_map_iff in Ht'. destruct Ht' as ([t'' c'] & Q3 & Ht'). cbn [fst] in Q3. subst t''.
        destruct (Hcl t c Tl) as [->|Lc]; [destruct (IJ q Hq)|]. assert (Nc : exists cc, c = cc ++ [last c NIL]) by (destruct (list_snoc c) as [->|(k3 & z & ->)]; [destruct (IJ q Hq)|exists k3; now rewrite last_snoc]). destruct Nc as (cc & Ec).
        assert (Hcc : In q cc). { pose proof (IJ q Hq) as Q3. rewrite Ec in Q3. apply in_app_iff in Q3. destruct Q3 as [Q3|[Q3|[]]]; [auto|]. rewrite Q3 in Lc. congruence. }
        refine (Hnc (nb s t) (nb s q) (fun Q3 => Nt (eq_sym Q3)) _). destruct (ws_walk g0 a d G Ad D b Tu DT Lf Fs HFs ea eb mid ER) as (_ & _ & SS). eapply sub_trans; [|exact SS]. rewrite Ews, F2, fl'_app.
        rewrite <- Lc at 2. rewrite <- Et' at 2. change ([nb s t; nb s q; nb s (last c NIL); nb s t']) with (map (nb s) [t; q; last c NIL; t']). apply sub_map. change (t0 :: c0 ++ fl' pre ++ fl' ((t, c) :: qq :: suf)) with ((t0 :: c0) ++ fl' pre ++ fl' ((t, c) :: qq :: suf)). apply sub_skip_l, sub_skip_l, sub_skip_l. change (fl' ((t, c) :: qq :: suf)) with (t :: c ++ fl' (qq :: suf)). constructor. rewrite Ec at 2. rewrite <- app_assoc.
        change [q; last c NIL; t'] with ([q] ++ [last c NIL] ++ [t']). apply sub_app; [now apply sub_one|]. apply sub_app; [apply sub_refl|]. apply sub_one. apply in_fl'. exists (t', c'). auto.
Qed.
End P.
End Z.
