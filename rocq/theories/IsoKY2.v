(** * IsoKY2: the path between the two sides of the external face that is closest to the root of a component. *)
From Coq Require Import ZifyBool Permutation.
From Verif Require Import Base BaseP GraphRec GraphM GraphSpec GSimp LinkP GraphP GraphP2 GraphP3 GraphP6 GraphP7 ListM ListSpec DFSM DFSSpec DFSP TestM TestSpec TestP TestP3 EmbM EmbSpec EmbP EmbP2 FaceP GeoP EmbInv EmbStep EmbTree EmbWalk EmbOrient EmbJoin FanP IsoM IsoP1 IsoO2 IsoX IsoX2 IsoX3 PlV PlV3 PlI IsoKI IsoKX IsoKY.

Lemma F2_in (P : Z -> list Z -> Prop) rs fs F : Forall2 P rs fs -> In F fs -> exists r, In r rs /\ P r F.
Proof. intros H HF. induction H as [|r f rs fs H1 H IH]; [destruct HF|]. destruct HF as [->|HF]; [exists r; split; [now left|auto]|]. destruct (IH HF) as (r' & I1 & I2). exists r'. split; [now right|auto]. Qed.

Section Y.
Variables (g0 : graph) (kids : Z -> list Z).
Hypothesis St : static g0 kids.
Local Notation N := (gN g0).
Local Notation p := (viParent (gVI g0)).
Local Notation prim := (prim (gN g0)).
Local Notation geo := (geo (gN g0) (viParent (gVI g0))).
Local Notation act := (act g0).
Local Notation vsof := (vsof (gN g0)).
Local Notation iface := (iface (gN g0)).
Local Notation rp := (rp g0).
Local Notation rpv := (rpv g0).
Local Notation marked := (marked g0).
Variables (a : est) (d : Z) (L : list Z).
Local Notation s := (eV a).
Local Notation R := (gN g0 + d).
Local Notation src := (src s).
Hypothesis G : geo NIL [] s.
Hypothesis Ad : act s d.
Hypothesis LW : Lw g0 s R L.
Local Notation G0 := (g_base _ _ _ _ _ G).
Variables (D : Z -> bool) (b : est).
Hypothesis Tu : turned a D b.
Hypothesis DT : forall x, In x (vsof s R) -> D x = true.
Local Notation Ab := (adj (eV b)).
Hypothesis Lf : forall x e, In e (adj s x) -> nb s e <> x.
Variables (Fs : list (list Z)).
Hypothesis HFs : Forall2 (iface s R) (tl (rot s R)) Fs.
Local Notation fls := (map (fun F => rev (tl (map src F))) Fs).
Local Notation ws ea := (ws Fs ea).
Variables (x w y : Z) (A0 A1 A2 A3 : list Z).
Hypothesis EL : L = A0 ++ x :: A1 ++ w :: A2 ++ y :: A3.
Hypothesis NW : ~ In w (concat fls).

Lemma K_R : exists ea mid eb, rot s R = ea :: mid ++ [eb] /\ nb s ea = hd NIL L /\ nb s eb = last L NIL /\ hd NIL L <> last L NIL.
Proof.
  pose proof (Kt_rims g0 a d L G Ad LW D b Tu DT) as PR. destruct (K_facts g0 kids St a d L G Ad LW) as (Nd & _). apply NoDup_cons_iff in Nd. destruct Nd as [_ Nd].
  assert (ER : Ab R = rot s R) by (apply (Ab_rot g0 a d D b Tu DT); now left).
  assert (Hn : hd NIL L <> last L NIL).
  { rewrite EL in Nd |- *. intros Q. destruct A0 as [|z A0']; cbn [app hd] in *.
    - apply NoDup_cons_iff in Nd. apply (proj1 Nd). rewrite Q. destruct (list_snoc (A1 ++ w :: A2 ++ y :: A3)) as [Q2|(l & z & ->)]; [destruct A1; discriminate|]. change (x :: l ++ [z]) with ((x :: l) ++ [z]). rewrite last_snoc. apply in_app_iff. right. now left.
    - apply NoDup_cons_iff in Nd. apply (proj1 Nd). rewrite Q. destruct (list_snoc (A0' ++ x :: A1 ++ w :: A2 ++ y :: A3)) as [Q2|(l & z' & ->)]; [destruct A0'; discriminate|]. change (z :: l ++ [z']) with ((z :: l) ++ [z']). rewrite last_snoc. apply in_app_iff. right. now left. }
  assert (NL : L <> []) by (intros Q; rewrite Q in Hn; now apply Hn). destruct L as [|x0 L'] eqn:EL0; [congruence|]. destruct (PR [] R x0 (L' ++ [R]) eq_refl) as (_ & _ & H1 & _ & _ & H2 & _).
  destruct (list_snoc (x0 :: L')) as [Q|(l & z & El)]; [discriminate|]. destruct (PR (R :: l) z R []) as (_ & _ & _ & H4 & _ & _ & H5); [rewrite El; cbn [app]; rewrite <- app_assoc; reflexivity|].
  rewrite (tu_nb _ _ _ Tu) in *. rewrite ER in *. rewrite El, last_snoc in *. destruct (rot s R) as [|ea r]; [congruence|]. cbn [hd] in H2. assert (El' : x0 = hd NIL (l ++ [z])) by (rewrite <- El; reflexivity).
  destruct (list_snoc r) as [->|(mid & eb & ->)]; [exfalso; cbn [last] in H5; congruence|]. exists ea, mid, eb. split; [auto|]. change (ea :: mid ++ [eb]) with ((ea :: mid) ++ [eb]) in H5. rewrite last_snoc in H5. split; [congruence|]. auto.
Qed.
Section E.
Variables (ea eb : Z) (mid : list Z).
Hypothesis ER : rot s R = ea :: mid ++ [eb].
Hypothesis Ea : nb s ea = hd NIL L.
Hypothesis Eb : nb s eb = last L NIL.
Hypothesis Hn : hd NIL L <> last L NIL.
Local Notation A := (adj_without Ab mid).
Lemma ea_adj : In ea (adj s R).
Proof. apply in_rot. rewrite ER. now left. Qed.
Lemma ws_walk : wchA a b mid ea (concat (map inner Fs)) /\ nb s (last (concat (map inner Fs)) ea) = nb s eb /\ sub (map (nb s) (ws ea)) (concat fls).
Proof.
  apply (faces_walk g0 a d G Ad D b Tu DT Lf ea eb mid ER mid Fs ea ea).
  - rewrite ER in HFs. exact HFs.
  - pose proof ea_adj as Q. destruct (keep_ea g0 a d G Lf ea eb mid ER) as [K1 K2]. split; [now rewrite (arc_src N p s _ ea G0 Q)|]. auto.
  - exists []. exact ER.
  - apply incl_refl.
Qed.
Lemma ws_vs t : In t (ws ea) -> In (nb s t) (mem N s R) /\ nb s t <> R /\ nb s t <> w.
Proof.
  intros Ht. destruct ws_walk as (_ & _ & S). assert (Hi : In (nb s t) (concat fls)) by (apply (sub_in _ _ _ S), in_map, Ht). split; [|split; [|intros Q; apply NW; now rewrite <- Q]].
  - assert (In (nb s t) (vsof s R) /\ nb s t <> R) as [Q1 Q2]; [|unfold GeoP.vsof in Q1; destruct Q1; congruence].
    apply in_concat in Hi. destruct Hi as (l & Hl & Hi). apply in_map_iff in Hl. destruct Hl as (F & <- & HF). assert (exists r, In r (tl (rot s R)) /\ iface s R r F) as (r & Hr & I).
    { exact (F2_in _ _ _ _ HFs HF). }
    assert (Hr' : In r (adj s R)) by (apply in_rot; destruct (rot s R); [destruct Hr|now right]). apply in_rev in Hi. pose proof (if_nd _ _ _ _ _ I) as Nd. pose proof (if_hd _ _ _ _ _ I) as Eh. pose proof (if_cl _ _ _ _ _ I) as [NF _]. destruct F as [|r0 F]; [congruence|]. cbn [hd] in Eh. subst r0. cbn [map tl] in *. rewrite (arc_src N p s _ r G0 Hr') in Nd. apply NoDup_cons_iff in Nd.
    split; [|intros Q; rewrite <- Q in Nd; tauto]. apply in_map_iff in Hi. destruct Hi as (e & <- & He). apply (if_in _ _ _ _ _ I). now right.
  - intros Q. rewrite Q in Hi. apply in_concat in Hi. destruct Hi as (l & Hl & Hi). apply in_map_iff in Hl. destruct Hl as (F & <- & HF). assert (exists r, In r (tl (rot s R)) /\ iface s R r F) as (r & Hr & I).
    { exact (F2_in _ _ _ _ HFs HF). }
    assert (Hr' : In r (adj s R)) by (apply in_rot; destruct (rot s R); [destruct Hr|now right]). apply in_rev in Hi. pose proof (if_nd _ _ _ _ _ I) as Nd. pose proof (if_hd _ _ _ _ _ I) as Eh. pose proof (if_cl _ _ _ _ _ I) as [NF _]. destruct F as [|r0 F]; [congruence|]. cbn [hd] in Eh. subst r0. cbn [map tl] in *. rewrite (arc_src N p s _ r G0 Hr') in Nd. apply NoDup_cons_iff in Nd. tauto.
Qed.
Lemma wch_arc : forall l t, In t (adj s (src t)) -> wchA a b mid t l -> forall e, In e (t :: l) -> In e (adj s (src e)).
Proof.
  induction l as [|u l IH]; intros t Ht W e [<-|He]; auto; [destruct He|]. destruct W as [(W1 & W2 & W3) W]. apply (IH u); auto. unfold adj_without in W2. apply filter_In in W2. destruct W2 as [W2 _]. apply (Ab_in a D b Tu) in W2. now rewrite (arc_src N p s _ u G0 W2).
Qed.
Lemma chain_nd : forall l t, wchA a b mid t l -> (forall z, In z (t :: l) -> In t (A (nb s z)) -> cnext (A (nb s z)) t <> twin z) -> NoDup (t :: l).
Proof.
  induction l as [|u l IH] using rev_ind; intros t W H; [constructor; [intros []|constructor]|]. apply wchA_app in W. destruct W as [W [(X1 & X2 & X3) _]].
  assert (Nd : NoDup (t :: l)) by (apply IH; auto; intros z Hz; apply H; destruct Hz as [<-|Hz]; [now left|right; apply in_app_iff; auto]).
  assert (Hl : In (last l t) (t :: l)) by (destruct (list_snoc l) as [->|(k & z & ->)]; [now left|rewrite last_snoc; right; apply in_app_iff; right; now left]).
  assert (Hu : ~ In u (t :: l)); [|change (t :: l ++ [u]) with ((t :: l) ++ [u]); apply (Permutation_NoDup (Permutation_cons_append (t :: l) u)); constructor; auto].
  intros [<-|Hu].
  - apply (H (last l t)); auto. destruct Hl as [<-|Hl]; [now left|right; apply in_app_iff; auto].
  - apply in_split in Hu. destruct Hu as (l1 & l2 & E). rewrite E in W. apply wchA_app in W. destruct W as [_ [(Y1 & Y2 & Y3) _]].
    assert (Eq : nb s (last l1 t) = nb s (last l t)). { unfold adj_without in X2, Y2. apply filter_In in X2, Y2. destruct X2 as [X2 _], Y2 as [Y2 _]. apply (Ab_in a D b Tu) in X2, Y2. destruct (g_twins _ _ _ G0 _ _ X2) as [P1 _], (g_twins _ _ _ G0 _ _ Y2) as [P2 _]. congruence. }
    assert (Et : last l1 t = last l t) by (apply twin_inj; change (twin (last l1 t) = twin (last l t)); rewrite <- X3, <- Y3, Eq; reflexivity). rewrite E in Et, Nd. clear - Et Nd.
    assert (Q : In (last (l1 ++ u :: l2) t) (u :: l2)). { clear. destruct (list_snoc (u :: l2)) as [Q|(k & z & Q)]; [discriminate|]. rewrite Q, app_assoc, last_snoc. apply in_app_iff. right. now left. }
    rewrite <- Et in Q. change (t :: l1 ++ u :: l2) with ((t :: l1) ++ u :: l2) in Nd. apply (NoDup_app_disj _ _ (last l1 t) Nd); auto. destruct (list_snoc l1) as [->|(k & z & ->)]; [now left|rewrite last_snoc; right; apply in_app_iff; right; now left].
Qed.
Lemma ws_arc e : In e (ws ea) -> In e (adj s (src e)).
Proof. intros He. apply (wch_arc (concat (map inner Fs)) ea); auto; [rewrite (arc_src N p s _ ea G0 ea_adj); apply ea_adj|apply ws_walk]. Qed.
Lemma ws_nd : NoDup (ws ea).
Proof.
  apply chain_nd; [apply ws_walk|]. intros z Hz Hi _. unfold adj_without in Hi. apply filter_In in Hi. destruct Hi as [Hi _]. apply (Ab_in a D b Tu) in Hi. destruct (g_twins _ _ _ G0 _ _ Hi) as [P1 _], (g_twins _ _ _ G0 _ _ ea_adj) as [P2 _].
  destruct (ws_vs z Hz) as (_ & Q & _). congruence.
Qed.

(** What is known of the path: the arc [u] by which it arrives, and the stack of the arcs before. *)
Record xyk (f : Z -> Z) (g g' : graph) (F' : Z -> Z) (stk : list Z) (st : list (Z * list Z)) (u : Z) (T1 rest : list Z) : Prop := {
  xk_rp : rpv g' (setfl (setfp b f) F') stk; xk_ty : forall z, vtype g' z = vtype g z; xk_mk : marked (fl s) F' (u :: map fst (removelast st));
  xk_ws : ws ea = T1 ++ flat st ++ u :: rest; xk_ne : st <> [];
  xk_nd : NoDup (map (fun q => nb s (fst q)) ((u, []) :: st));
  xk_src : forall s1 t c t' c' s2, (u, []) :: st = s1 ++ (t, c) :: (t', c') :: s2 -> src t = nb s t';
  xk_cl : forall t c, In (t, c) st -> c = [] \/ nb s (last c NIL) = nb s t;
  xk_out : forall s1 t c s2 e, st = s1 ++ (t, c) :: s2 -> In e c -> ~ In (nb s e) (map (fun q => nb s (fst q)) s2);
  xk_rx : In (nb s (fst (last st (NIL, [])))) (A0 ++ x :: A1);
  xk_int : forall s1 t c, st = s1 ++ [(t, c)] -> forall e, In e (c ++ flat s1) -> nb s e = nb s t \/ ~ In (nb s e) (R :: L);
  xk_ry : In (nb s u) (A2 ++ y :: A3) }.

Lemma kxy g f F stk : rpv g (setfl (setfp b f) F) stk -> marked (fl s) F [] -> vis0 g0 g ->
  (forall z, In z A0 -> vtype g z = OBS_HIGH_RXW) -> (forall z, In z (x :: A1) -> vtype g z = OBS_LOW_RXW) -> (forall z, In z (A2 ++ [y]) -> vtype g z = OBS_LOW_RYW) -> (forall z, In z A3 -> vtype g z = OBS_HIGH_RYW) ->
  (forall z, In z (vsof s R) -> ~ In z (A0 ++ x :: A1) -> ~ In z (A2 ++ y :: A3) -> vtype g z = 0) ->
  Z.of_nat (length stk) + Z.of_nat (length (adj s R)) + 2 * Z.of_nat (length (mem N s R)) + 2 <= gstackCap g0 ->
  exists g' F' st u T1 rest, _MarkHighestXYPath g R w = Ret (g', C_OK, nb s (fst (last st (NIL, []))), nb s u) /\ xyk f g g' F' stk st u T1 rest.
Proof.
  intros H M V0 TA0 TA1 TA2 TA3 T00 Cap. pose proof (r_chains _ _ _ _ H) as C. cbn [setfl set_V v_fl eV adj setfp] in C.
  destruct (K_facts g0 kids St a d L G Ad LW) as (NdRL & KP). pose proof NdRL as NdL. apply NoDup_cons_iff in NdL. destruct NdL as [RL NdL].
  assert (NdR : NoDup (Ab R)) by apply (ch_nodup _ _ C).
  assert (Enb : forall z, enbr g z = nb s z) by (intros z; rewrite (r_nb _ _ _ _ H); cbn; now rewrite (tu_nb _ _ _ Tu)).
  assert (TW : twins_ok g Ab). { intros z e He. rewrite !Enb. pose proof (Kt_tw g0 a G D b Tu z e He) as [Q1 Q2]. rewrite (tu_nb _ _ _ Tu) in *. auto. }
  assert (NLp : no_loops g Ab). { intros z e He. rewrite Enb. apply Lf. now apply (Ab_in a D b Tu). }
  assert (Stk : gstack g = stk) by apply (r_stack _ _ _ _ H).
  pose proof (rpv_stackcap g0 _ _ _ H) as SC. assert (EAb : Ab R = ea :: mid ++ [eb]) by (rewrite (Ab_rot g0 a d D b Tu DT); [exact ER|now left]).
  assert (LR : length (adj s R) = (2 + length mid)%nat). { assert (Q : length (rot s R) = length (adj s R)). { apply Nat.le_antisymm; apply NoDup_incl_length; [apply rot_nodup, (g_nodup _ _ _ G0)|intros z; apply in_rot|apply (g_nodup _ _ _ G0)|intros z; apply in_rot]. } rewrite <- Q, ER; cbn [length]; rewrite app_length; cbn [length]; lia. }
  destruct (hide_internal_ok2 g Ab R ea mid eb C TW NLp EAb) as (k & E1 & Ck & Tk & Fk & U); [rewrite Stk; lia|].
  unfold _MarkHighestXYPath. rewrite E1. cbn [bind C_OK Z.eqb Pos.eqb negb]. rewrite Stk in *.
  assert (VR : 1 <= R <= 2 * N) by (apply (K_rng g0 kids St a d L G Ad LW); now left). pose proof (rpv_N g0 _ _ _ H) as KN.
  assert (Isv : is_vertex k R) by (unfold is_vertex; rewrite (fl_N _ _ Fk), KN; lia).
  assert (AR : A R = [ea; eb]).
  { unfold adj_without. rewrite EAb. destruct (keep_ea g0 a d G Lf ea eb mid ER) as [K1 _]. cbn [filter]. rewrite K1. f_equal. rewrite filter_app. rewrite EAb in NdR. apply NoDup_cons_iff in NdR. destruct NdR as [_ NdR]. rewrite filter_none.
    - cbn [app filter]. assert (K2 : negb (existsb (fun e => (eb =? e) || (eb =? twin e)) mid) = true).
      { rewrite keep_iff. split; [intros Q; apply (NoDup_app_disj _ _ eb NdR Q); now left|]. intros Q. assert (He : In eb (adj s R)) by (apply in_rot; rewrite ER; right; apply in_app_iff; right; now left). assert (Hq : In (twin eb) (adj s R)) by (apply in_rot; rewrite ER; right; apply in_app_iff; auto). pose proof (arc_src N p s _ _ G0 Hq) as Q2. unfold PlV.src in Q2. rewrite twin_invol in Q2. now apply (Lf R eb). }
      now rewrite K2.
    - intros e He. apply not_true_iff_false. rewrite keep_iff. tauto. }
  rewrite get_last by (apply inV_true; unfold is_vertex, gp_VertexIndexBound in *; gsimp; lia). cbn [bind]. gsimp. rewrite (ch_last _ _ Ck R Isv), AR. cbn [last].
  set (S0 := rev mid ++ stk). assert (Ek : forall z, enbr k z = nb s z) by (intros z; rewrite (fl_enbr _ _ Fk); apply Enb).
  assert (Em : forall l, map (enbr k) l = map (nb s) l) by (intros l; apply map_ext; auto).
  destruct ws_walk as (Wk & We & Wsub). set (ts := concat (map inner Fs)) in *.
  assert (Wc : forall l t, wchA a b mid t l -> wch k A t l). { induction l as [|q l IH]; intros t Ht; [exact I|]. destruct Ht as [(H1 & H2 & H3) Ht]. split; [|now apply IH]. unfold pv. rewrite !Ek. auto. }
  assert (Ty : forall z, In z L -> is_RXW (vtype g z) = true /\ In z (A0 ++ x :: A1) \/ z = w \/ is_RYW (vtype g z) = true /\ In z (A2 ++ y :: A3)).
  { intros z Hz. rewrite EL in Hz. repeat (rewrite in_app_iff in Hz; cbn [In] in Hz). destruct Hz as [Hz|[Hz|[Hz|[Hz|[Hz|[Hz|Hz]]]]]].
    - left. rewrite (TA0 z Hz). split; [reflexivity|]. apply in_app_iff. auto.
    - left. rewrite TA1 by (now left). split; [reflexivity|]. apply in_app_iff. right. now left.
    - left. rewrite TA1 by (now right). split; [reflexivity|]. apply in_app_iff. right. now right.
    - auto.
    - right. right. rewrite TA2 by (apply in_app_iff; auto). split; [reflexivity|]. apply in_app_iff. auto.
    - right. right. rewrite TA2 by (apply in_app_iff; right; now left). split; [reflexivity|]. apply in_app_iff. right. now left.
    - right. right. rewrite (TA3 z Hz). split; [reflexivity|]. apply in_app_iff. right. now right. }
  assert (Tn : forall z, In z (vsof s R) -> ~ In z L -> vtype g z = 0).
  { intros z Hz Nz. apply T00; auto; intros Q; apply Nz; rewrite EL; repeat (rewrite in_app_iff in *; cbn [In] in *); tauto. }
  assert (Tx : forall z, In z (A0 ++ x :: A1) -> is_RXW (vtype g z) = true). { intros z Hz. apply in_app_iff in Hz. destruct Hz as [Hz|Hz]; [rewrite (TA0 z Hz)|rewrite (TA1 z Hz)]; reflexivity. }
  assert (Hx0 : In (hd NIL L) (A0 ++ x :: A1)) by (rewrite EL; destruct A0; now left).
  assert (HyL : is_RYW (vtype g (last L NIL)) = true).
  { destruct (list_snoc A3) as [E3|(l & z & E3)].
    - rewrite EL, E3. replace (A0 ++ x :: A1 ++ w :: A2 ++ [y]) with ((A0 ++ x :: A1 ++ w :: A2) ++ [y]) by (rewrite <- app_assoc; cbn [app]; rewrite <- app_assoc; reflexivity). rewrite last_snoc, TA2 by (apply in_app_iff; right; now left). reflexivity.
    - rewrite EL, E3. replace (A0 ++ x :: A1 ++ w :: A2 ++ y :: l ++ [z]) with ((A0 ++ x :: A1 ++ w :: A2 ++ y :: l) ++ [z]) by (repeat (rewrite <- app_assoc; cbn [app]); reflexivity). rewrite last_snoc, TA3 by (rewrite E3; apply in_app_iff; right; now left). reflexivity. }
  assert (Hea : In ea (A R)) by (rewrite AR; now left). destruct (Tk _ _ Hea) as [Te1 Te2]. rewrite Ek in Te2. assert (VX : inV k (nb s ea) = true) by exact (V_in k A Ck [] _ _ Te2). assert (VRk : inV k R = true) by exact (V_in k A Ck [] _ _ Hea).
  assert (Fuel : (length (ws ea) < Z.to_nat (gp_EdgeIndexBound k))%nat).
  { pose proof (nodup_range_length (ws ea) 2 (gp_EdgeIndexBound k) ws_nd) as Q. assert (QR : forall e, In e (ws ea) -> 2 <= e < gp_EdgeIndexBound k). { intros e He. pose proof (ws_arc e He) as Q1. apply (Ab_in a D b Tu) in Q1. pose proof (ch_range _ _ C _ _ Q1) as Q2. unfold gp_EdgeIndexBound in *. rewrite (fl_cap _ _ Fk). lia. } specialize (Q QR). assert (In ea (ws ea)) by (now left). specialize (QR ea H0). cbn [length ws IsoKY.ws] in *. lia. }
  assert (Emk : set_gstack k S0 = mk k (vflags k) (eflags k) S0) by (destruct k; reflexivity). rewrite Emk.
  change (efuel (mk k (vflags k) (eflags k) S0)) with (efuel k). change (stk_size (mk k (vflags k) (eflags k) S0)) with (Z.of_nat (length S0)).
  assert (SCk : gstackCap k = gstackCap g0) by (rewrite (fl_stackCap _ _ Fk); exact SC). assert (LS0 : length S0 = (length mid + length stk)%nat) by (unfold S0; rewrite app_length, rev_length; reflexivity).
  assert (Tyk : forall z, Z.land (vflags k z) VERTEX_OBSTRUCTIONTYPE_MASK = vtype g z) by (intros z; rewrite (fl_vflags _ _ Fk); reflexivity).
  assert (Vk : forall z, In z (map (enbr k) (ws ea)) -> Z.land (vflags k z) VERTEX_VISITED_MASK = 0).
  { intros z Hz. rewrite Em in Hz. apply in_map_iff in Hz. destruct Hz as (e & <- & He). rewrite (fl_vflags _ _ Fk). apply V0. destruct (ws_vs e He) as (Q & _). apply in_mem in Q. destruct Q as [Q _]. unfold GeoP.prim in Q. lia. }
  assert (LL : xy_loop (efuel k) (mk k (vflags k) (eflags k) S0) w (Z.of_nat (length S0)) R eb NIL =
     xy_loop (Z.to_nat (gp_EdgeIndexBound k)) (mk k (upd (vflags k) (nb s ea) (Z.lor (vflags k (nb s ea)) VERTEX_VISITED_MASK)) (eflags k) (mst k S0 [(ea, [])])) w (Z.of_nat (length S0)) (enbr k ea) (twin ea) (px k [(ea, [])])).
  { unfold efuel. cbn [xy_loop]. rewrite mk_type by auto. cbn [bind]. rewrite Tyk. rewrite Tn by (auto; now left). change (is_RYW 0) with false. cbv iota.
    rewrite (mk_prev k A Ck [] _ _ _ R [ea] eb []) by (auto; discriminate). cbn [bind last]. rewrite (mk_nbr k A Ck [] _ _ _ R) by auto. cbn [bind]. rewrite Ek. rewrite mk_vis by auto. cbn [bind]. rewrite Vk by (rewrite <- Ek; now left).
    change (negb (0 =? 0)) with false. cbv iota. rewrite eqb_false_neq by (apply ws_vs; now left). rewrite mk_type by auto. cbn [bind]. rewrite Tyk. assert (Tx0 := Tx _ Hx0). rewrite <- Ea in Tx0. rewrite Tx0. assert (Ty0 : is_RYW (vtype g (nb s ea)) = false) by (unfold is_RXW, is_RYW, OBS_HIGH_RXW, OBS_LOW_RXW, OBS_HIGH_RYW, OBS_LOW_RYW in *; lia). rewrite Ty0.
    assert (PU : _PopAndUnmarkVerticesAndEdges (mk k (vflags k) (eflags k) S0) NIL (Z.of_nat (length S0)) = Ret (mk k (vflags k) (eflags k) S0)).
    { unfold _PopAndUnmarkVerticesAndEdges. cbn [pop_unmark]. unfold stk_size. change (gstack (mk k (vflags k) (eflags k) S0)) with S0. now rewrite Z.leb_refl. }
    rewrite PU. cbn [bind]. rewrite (mk_push k []) by lia. cbn [bind]. rewrite (mk_push k []) by (cbn [length]; lia). cbn [bind]. rewrite mk_set by auto. cbn [bind]. rewrite Z.eqb_refl. cbn [negb bind]. change (gp_GetTwinArc ea) with (twin ea).
    unfold mst, px. cbn [flat_map app fst last]. rewrite Ek. reflexivity. }
  rewrite LL. clear LL.
  assert (Eea : In ea (A (enbr k (twin ea)))) by (rewrite Te1; exact Hea).
  assert (Mem : forall l, NoDup l -> incl l (map (enbr k) (ws ea)) -> (length l <= length (mem N s R))%nat). { intros l Nl Il. apply NoDup_incl_length; auto. intros z Hz. apply Il in Hz. rewrite Em in Hz. apply in_map_iff in Hz. destruct Hz as (e & <- & He). now apply ws_vs. }
  destruct (xy_walk k A Ck Tk S0 g0 (fl s) w (vtype g) (ws ea) (length (mem N s R))) with (ts := ts) (n := Z.to_nat (gp_EdgeIndexBound k)) (Fv := upd (vflags k) (nb s ea) (Z.lor (vflags k (nb s ea)) VERTEX_VISITED_MASK)) (Fe := eflags k) (st := [(ea, @nil Z)]) (T1 := @nil Z) (pre := @nil Z) (cur := ea) (t := ea) (c := @nil Z) (r := @nil (Z * list Z)) as (Fv' & Fe' & st & u & T1 & rest & E2 & P1 & P2 & P3 & P4 & P5 & P6 & P7 & P8).
  - intros t Ht. rewrite Ek. now apply ws_vs.
  - rewrite SCk, LS0. lia.
  - exact Mem.
  - reflexivity.
  - reflexivity.
  - now apply Wc.
  - apply good_one; auto. rewrite Ek, Ea. now apply Tx.
  - reflexivity.
  - reflexivity.
  - constructor.
    + intros z Hz. cbn [qs map fst In]. rewrite Ek. unfold upd. destruct (Z.eqb_spec z (nb s ea)) as [->|Q]; [split; [auto|intros _; apply land1_lor]|]. rewrite Vk by auto. split; [congruence|]. intros [Q'|[]]. congruence.
    + intros z. rewrite <- Tyk. unfold upd. destruct (Z.eqb_spec z (nb s ea)) as [->|Q]; [apply lor_other|reflexivity].
    + cbn [removelast map]. rewrite (fl_eflags _ _ Fk). eapply marked_ext; [exact M|]. intros z. rewrite (r_fl _ _ _ _ H). reflexivity.
  - cbn [flat app]. intros z [<-|[]]. now left.
  - exact Eea.
  - destruct (list_snoc ts) as [Q|(l & z & Q)]; [exfalso; rewrite Q in We; cbn [last] in We; congruence|]. exists z. split; [rewrite Q; apply in_app_iff; right; now left|]. rewrite Q, last_snoc in We. rewrite Ek, We, Eb. exact HyL.
  - intros e He. rewrite Ek. destruct (ws_vs e He) as (Q1 & Q2 & Q3). destruct (in_dec Z.eq_dec (nb s e) L) as [I|I]; [destruct (Ty _ I) as [[I2 _]|[I2|[I2 _]]]; auto; congruence|]. left. apply Tn; auto. now right.
  - cbn [length IsoKY.ws] in Fuel. fold ts in Fuel. lia.
  - rewrite E2. cbn [bind]. change (stk_size g) with (Z.of_nat (length (gstack g))). rewrite Stk.
    assert (Esh : stk_shrink (mk k Fv' Fe' (mst k S0 ((u, []) :: st))) (Z.of_nat (length S0)) = set_gstack (mk k Fv' Fe' []) S0).
    { unfold stk_shrink. change (gstack (mk k Fv' Fe' (mst k S0 ((u, []) :: st)))) with (mst k S0 ((u, []) :: st)). unfold mst. rewrite app_length, Nat2Z.id. rewrite Nat.add_sub. rewrite skipn_app, skipn_all, Nat.sub_diag. reflexivity. }
    rewrite Esh. destruct (U (mk k Fv' Fe' [])) as (h' & E3 & ELk & F').
    + constructor; reflexivity.
    + exact (fl_N _ _ Fk).
    + exact (fl_cap _ _ Fk).
    + intros z. change (enbr (mk k Fv' Fe' []) z) with (enbr k z). now rewrite (fl_enbr _ _ Fk).
    + unfold S0. rewrite E3. cbn [bind C_OK Z.eqb Pos.eqb negb].
      assert (Iu : In u (ws ea)) by (rewrite P1; apply in_app_iff; right; apply in_app_iff; right; now left). destruct (ws_vs u Iu) as (Mu & NRu & Nwu).
      assert (Npy : enbr k u <> NIL). { rewrite Ek. apply in_mem in Mu. destruct Mu as [Mu _]. unfold GeoP.prim, NIL in *. lia. }
      rewrite eqb_false_neq by auto. unfold px. rewrite !Ek. exists (set_gstack h' stk), Fe', st, u, T1, rest. split; [reflexivity|].
      assert (Eqs : forall l, map (fun q : Z * list Z => enbr k (fst q)) l = map (fun q => nb s (fst q)) l) by (intros l; apply map_ext; intros q; apply Ek).
      constructor.
      * assert (B1 : gN h' = gN g) by (rewrite (fl_N _ _ F'); exact (fl_N _ _ Fk)).
        assert (B2 : gM h' = gM g) by (rewrite (fl_M _ _ F'); exact (fl_M _ _ Fk)).
        assert (B3 : gCap h' = gCap g) by (rewrite (fl_cap _ _ F'); exact (fl_cap _ _ Fk)).
        assert (B4 : enbr h' = enbr g) by (rewrite (fl_enbr _ _ F'); exact (fl_enbr _ _ Fk)).
        assert (B7 : vindex h' = vindex g) by (rewrite (fl_vindex _ _ F'); exact (fl_vindex _ _ Fk)).
        assert (B8 : gholes h' = gholes g) by (rewrite (fl_holes _ _ F'); exact (fl_holes _ _ Fk)).
        assert (B9 : gholesCap h' = gholesCap g) by (rewrite (fl_holesCap _ _ F'); exact (fl_holesCap _ _ Fk)).
        assert (B10 : gstackCap h' = gstackCap g) by (rewrite (fl_stackCap _ _ F'); exact (fl_stackCap _ _ Fk)).
        assert (B11 : giflags h' = giflags g) by (rewrite (fl_iflags _ _ F'); exact (fl_iflags _ _ Fk)).
        assert (B12 : gembed h' = gembed g) by (rewrite (fl_embed _ _ F'); exact (fl_embed _ _ Fk)).
        assert (B13 : gVI h' = gVI g) by (rewrite (fl_VI _ _ F'); exact (fl_VI _ _ Fk)).
        assert (B14 : gX h' = gX g) by (rewrite (fl_X _ _ F'); exact (fl_X _ _ Fk)).
        assert (B5 : eflags h' = Fe') by exact (fl_eflags _ _ F').
        assert (B6 : vflags h' = Fv') by exact (fl_vflags _ _ F').
        unfold IsoP1.rpv in *. pose proof (r_keeps _ _ _ _ H) as KK. destruct H. destruct KK. constructor; gsimp; cbn [setfl setfp set_V v_fl eV nb fl e0 e1 adj fw prl pe fpc vis] in *; rewrite ?B1, ?B2, ?B3, ?B4, ?B5, ?B8, ?B9, ?B10, ?B11, ?B12, ?B13, ?B14; auto.
        -- constructor; gsimp; rewrite ?B1, ?B2, ?B3, ?B4, ?B5, ?B8, ?B9, ?B10, ?B11, ?B12, ?B13, ?B14; auto. intros z Hz. rewrite B7, B6. split; [now apply k_index|reflexivity].
        -- apply (chains_agree g); auto; gsimp; [unfold gp_EdgeIndexBound; gsimp; rewrite B3; lia|..]; intros; split; apply ELk.
        -- intros z. eapply ring_ext; [|apply r_ring]. intros; split; apply ELk.
        -- intros z e He. specialize (r_fwrange z e He). unfold gp_EdgeIndexBound in *. gsimp. now rewrite B3.
        -- unfold prlheads, brl, gp_PrimaryVertexIndexBound in *. gsimp. rewrite B1, B13, B14. exact r_prl.
      * intros z. unfold vtype. gsimp. rewrite (fl_vflags _ _ F'). apply P5.
      * exact P6.
      * exact P1.
      * exact P3.
      * unfold qs in P7. now rewrite Eqs in P7.
      * intros s1 t c t' c' s2 E. unfold PlV.src. rewrite <- !Ek. eapply P8. exact E.
      * intros t c Ht. rewrite <- !Ek. eapply gd_cl; eauto.
      * intros s1 t c s2 e E He. rewrite <- Eqs, <- Ek. exact (gd_out _ _ _ _ P2 s1 t c s2 e E He).
      * destruct (list_snoc st) as [Q|(s1 & [t c] & Q)]; [congruence|]. destruct (gd_ty _ _ _ _ P2 s1 t c Q) as [Q1 _]. rewrite Q, last_snoc. cbn [fst]. rewrite Ek in Q1.
        assert (It : In t (ws ea)) by (rewrite P1, Q, flat_app; cbn [flat app]; apply in_app_iff; right; now left). destruct (ws_vs t It) as (Q2 & Q3 & Q4). destruct (in_dec Z.eq_dec (nb s t) L) as [I|I]; [destruct (Ty _ I) as [[_ I2]|[I2|[I2 _]]]; auto; [congruence|]|].
        -- exfalso. unfold is_RXW, is_RYW, OBS_HIGH_RXW, OBS_LOW_RXW, OBS_HIGH_RYW, OBS_LOW_RYW in *. lia.
        -- exfalso. rewrite Tn in Q1; [discriminate|now right|auto].
      * intros s1 t c Q e He. destruct (gd_ty _ _ _ _ P2 s1 t c Q) as [_ Q1]. specialize (Q1 e He). rewrite !Ek in Q1. destruct Q1 as [Q1|Q1]; [auto|right].
        assert (It : In e (ws ea)) by (rewrite P1, Q, flat_app; cbn [flat app]; apply in_app_iff; right; right; apply in_app_iff; now left). destruct (ws_vs e It) as (Q2 & Q3 & Q4). intros [I|I]; [congruence|]. destruct (Ty _ I) as [[I2 _]|[I2|[I2 _]]]; [|congruence|]; rewrite Q1 in I2; discriminate.
      * destruct (in_dec Z.eq_dec (nb s u) L) as [I|I]; [destruct (Ty _ I) as [[I2 _]|[I2|[_ I2]]]; auto; [|congruence]|].
        -- exfalso. rewrite Ek in P4. unfold is_RXW, is_RYW, OBS_HIGH_RXW, OBS_LOW_RXW, OBS_HIGH_RYW, OBS_LOW_RYW in *. lia.
        -- exfalso. rewrite Ek, Tn in P4; [discriminate|now right|auto].
Qed.
End E.
End Y.
