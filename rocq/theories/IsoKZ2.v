(** * IsoKZ2: the X-Y path as a path, and the outcome of the search for a path from it to the root. *)
From Coq Require Import ZifyBool Permutation.
From Verif Require Import Base BaseP GraphRec GraphM GraphSpec GSimp LinkP GraphP GraphP2 GraphP3 GraphP6 GraphP7 ListM ListSpec DFSM DFSSpec DFSP TestM TestSpec TestP TestP3 EmbM EmbSpec EmbP EmbP2 FaceP GeoP EmbInv EmbStep EmbTree EmbWalk EmbOrient EmbJoin EmbDown EmbStor FanP IsoM IsoKM IsoP1 IsoO2 IsoX IsoX2 IsoX3 NcP PlV PlV3 PlI IsoKI IsoKX IsoKY IsoKY2 IsoKZ.

Section Z.
Variables (g0 : graph) (kids : Z -> list Z).
Hypothesis St : static g0 kids.
Local Notation N := (gN g0).
Local Notation p := (viParent (gVI g0)).
Local Notation prim := (prim (gN g0)).
Local Notation geo := (geo (gN g0) (viParent (gVI g0))).
Local Notation act := (act g0).
Local Notation vsof := (vsof (gN g0)).
Local Notation iface := (iface (gN g0)).
Local Notation rpv := (rpv g0).
Local Notation marked := (marked g0).
Variables (a : est) (d : Z) (L : list Z).
Local Notation s := (eV a).
Local Notation R := (gN g0 + d).
Local Notation src := (src s).
Hypothesis G : geo NIL [] s.
Hypothesis Ad : act s d.
Hypothesis LW : Lw g0 s R L.
Hypothesis SO : stor g0 a.
Local Notation G0 := (g_base _ _ _ _ _ G).
Variables (D : Z -> bool) (b : est).
Hypothesis Tu : turned a D b.
Hypothesis DT : forall x, In x (vsof s R) -> D x = true.
Hypothesis Lf : forall x e, In e (adj s x) -> nb s e <> x.
Variables (f : Z -> Z) (stk : list Z).
Local Notation b' := (setfp b f).
Variables (Fs : list (list Z)).
Hypothesis HFs : Forall2 (iface s R) (tl (rot s R)) Fs.
Local Notation fls := (map (fun F => rev (tl (map src F))) Fs).
Hypothesis Hnc : nc (concat fls).
Variables (x w y : Z) (A0 A1 A2 A3 : list Z).
Hypothesis EL : L = A0 ++ x :: A1 ++ w :: A2 ++ y :: A3.
Hypothesis NW : ~ In w (concat fls).
Local Notation achain := (achain a).

(** The X-Y path: its arcs [pa], from [px] to [py], inside the component. *)
Record xypath (px py : Z) (pa : list Z) : Prop := {
  xp_ch : achain px pa py; xp_ne : pa <> []; xp_nd : NoDup (px :: map (nb s) pa);
  xp_in : forall e, In e (removelast pa) -> In (nb s e) (mem N s R) /\ nb s e <> R /\ ~ In (nb s e) L;
  xp_x : In px (A0 ++ x :: A1); xp_y : In py (A2 ++ y :: A3) }.
(** A path from an inner vertex [z] of it to the root. *)
Record zpathf (px : Z) (pa : list Z) (z : Z) (Zp : list Z) : Prop := {
  zf_at : exists q1 t q2, pa = q1 ++ t :: q2 /\ q2 <> [] /\ z = nb s t;
  zf_ch : achain z Zp R; zf_nd : NoDup (map (nb s) Zp);
  zf_in : forall e, In e (removelast Zp) -> In (nb s e) (mem N s R) /\ nb s e <> R /\ ~ In (nb s e) L /\ ~ In (nb s e) (px :: map (nb s) pa) }.

Lemma chain_of : forall pa t0, (forall e, In e (t0 :: pa) -> In e (adj s (src e))) -> (forall l1 q q' l2, t0 :: pa = l1 ++ q :: q' :: l2 -> src q' = nb s q) -> achain (nb s t0) pa (nb s (last pa t0)).
Proof.
  induction pa as [|e pa IH]; intros t0 Ha Hs; [reflexivity|]. cbn [IsoKZ.achain]. split; [rewrite <- (Hs [] t0 e pa eq_refl); apply Ha; right; now left|].
  replace (last (e :: pa) t0) with (last pa e). - apply IH; [intros q Hq; apply Ha; now right|]. intros l1 q q' l2 E. apply (Hs (t0 :: l1) q q' l2). cbn [app]. now rewrite E.
  - destruct pa; [reflexivity|]. change (last (e :: z :: pa) t0) with (last (z :: pa) t0). clear. revert z. induction pa; intros z; [reflexivity|apply IHpa].
Qed.

Theorem kxyz g F : rpv g (setfl b' F) stk -> marked (fl s) F [] -> vis0 g0 g ->
  (forall z, In z A0 -> vtype g z = OBS_HIGH_RXW) -> (forall z, In z (x :: A1) -> vtype g z = OBS_LOW_RXW) -> (forall z, In z (A2 ++ [y]) -> vtype g z = OBS_LOW_RYW) -> (forall z, In z A3 -> vtype g z = OBS_HIGH_RYW) ->
  (forall z, In z (vsof s R) -> ~ In z (A0 ++ x :: A1) -> ~ In z (A2 ++ y :: A3) -> vtype g z = 0) ->
  Z.of_nat (length stk) + Z.of_nat (length (adj s R)) + 2 * Z.of_nat (length (mem N s R)) + 2 <= gstackCap g0 ->
  exists g' F' px py pa, _MarkHighestXYPath g R w = Ret (g', C_OK, px, py) /\ rpv g' (setfl b' F') stk /\ marked (fl s) F' pa /\ (forall z, vtype g' z = vtype g z) /\ xypath px py pa /\
  ((_MarkZtoRPath g' R px py = Ret (g', C_OK, NIL) /\ exists FF k1 k2, In FF Fs /\ rev (tl (map src FF)) = k1 ++ px :: map (nb s) pa ++ k2) \/
   exists g2 F2 z Zp, _MarkZtoRPath g' R px py = Ret (g2, C_OK, z) /\ rpv g2 (setfl b' F2) stk /\ marked (fl s) F2 (Zp ++ pa) /\ (forall y, vtype g2 y = vtype g y) /\ zpathf px pa z Zp).
Proof.
  intros H M V0 TA0 TA1 TA2 TA3 T00 Cap.
  destruct (K_R g0 kids St a d L G Ad LW D b Tu DT Fs HFs x w y A0 A1 A2 A3 EL) as (ea & mid & eb & ER & Ea & Eb & Hn).
  destruct (kxy g0 kids St a d L G Ad LW D b Tu DT Lf Fs HFs x w y A0 A1 A2 A3 EL NW ea eb mid ER Ea Eb Hn g f F stk H M V0 TA0 TA1 TA2 TA3 T00 Cap) as (g' & F' & st & u & T1 & rest & E1 & K).
  pose proof (xk_ne _ _ _ _ _ _ _ _ _ _ _ _ _ _ _ _ _ _ _ _ _ _ K) as Ne. destruct (list_snoc st) as [Q|(s1 & [t0 c0] & Q)]; [congruence|]. set (l := rev s1). assert (Es : st = rev l ++ [(t0, c0)]) by (unfold l; now rewrite rev_involutive). clearbody l. clear Q s1 Ne. set (lu := l ++ [(u, rest)]).
  assert (Eml : forall q : list Z, map fst (l ++ [(u, q)]) = map fst l ++ [u]) by (intros q; rewrite map_app; reflexivity).
  assert (Erev : map fst ((u, []) :: st) = rev (t0 :: map fst lu)) by (unfold lu; rewrite Es, Eml; cbn [map fst rev]; rewrite map_app, map_rev, rev_app_distr; cbn [rev app map fst]; reflexivity).
  assert (Ews : IsoKY.ws Fs ea = T1 ++ t0 :: c0 ++ fl' lu). { rewrite (xk_ws _ _ _ _ _ _ _ _ _ _ _ _ _ _ _ _ _ _ _ _ _ _ K), Es, flat_app, flat_rev. unfold lu. rewrite fl'_app. cbn [flat fl' map concat fst snd app]. rewrite ?app_nil_r, <- ?app_assoc. cbn [app]. rewrite <- ?app_assoc. reflexivity. }
  assert (Nq : NoDup (map (nb s) (t0 :: map fst lu))). { pose proof (xk_nd _ _ _ _ _ _ _ _ _ _ _ _ _ _ _ _ _ _ _ _ _ _ K) as Nd. rewrite <- map_map, Erev, map_rev in Nd. apply NoDup_rev in Nd. now rewrite rev_involutive in Nd. }
  assert (Hsrc : forall l1 q q' l2, t0 :: map fst lu = l1 ++ q :: q' :: l2 -> src q' = nb s q).
  { intros l1 q q' l2 E. rewrite E in Erev. rewrite rev_app_distr in Erev. cbn [rev] in Erev. rewrite <- !app_assoc in Erev. cbn [app] in Erev. apply map_eq_app in Erev. destruct Erev as (m1 & m2 & Em & _ & Er). destruct m2 as [|[t c] [|[t' c'] m2]]; [discriminate|discriminate|]. cbn [map fst] in Er. injection Er as -> -> _. exact (xk_src _ _ _ _ _ _ _ _ _ _ _ _ _ _ _ _ _ _ _ _ _ _ K _ _ _ _ _ _ Em). }
  assert (Hcl : forall t c, In (t, c) l -> c = [] \/ nb s (last c NIL) = nb s t) by (intros t c Hq; apply (xk_cl _ _ _ _ _ _ _ _ _ _ _ _ _ _ _ _ _ _ _ _ _ _ K); rewrite Es; apply in_app_iff; left; now apply in_rev in Hq).
  assert (Hout : forall pre t c suf e, lu = pre ++ (t, c) :: suf -> suf <> [] -> In e c -> ~ In (nb s e) (map (nb s) (t0 :: map fst pre))).
  { intros pre t c suf e E Ns He. destruct (list_snoc suf) as [Q|(k & q & ->)]; [congruence|]. unfold lu in E. change (pre ++ (t, c) :: k ++ [q]) with (pre ++ ((t, c) :: k) ++ [q]) in E. rewrite app_assoc in E. apply app_inj_tail in E. destruct E as [E _]. rewrite E in Es. rewrite rev_app_distr in Es. cbn [rev] in Es. rewrite <- !app_assoc in Es. cbn [app] in Es.
    pose proof (xk_out _ _ _ _ _ _ _ _ _ _ _ _ _ _ _ _ _ _ _ _ _ _ K _ _ _ _ e Es He) as Ho. intros Hi. apply Ho. rewrite map_app. apply in_app_iff. cbn [map fst]. destruct Hi as [Hi|Hi]; [right; now left|]. left. rewrite map_map in Hi. apply in_map_iff in Hi. destruct Hi as (q' & Q1 & Q2). apply in_map_iff. exists q'. split; [auto|]. now apply in_rev in Q2. }
  assert (Epx : nb s (fst (last st (NIL, []))) = nb s t0) by (rewrite Es, last_snoc; reflexivity).
  assert (Hint : forall e, In e (c0 ++ fl' l) -> nb s e = nb s t0 \/ ~ In (nb s e) (R :: L)) by (intros e He; apply (xk_int _ _ _ _ _ _ _ _ _ _ _ _ _ _ _ _ _ _ _ _ _ _ K (rev l) t0 c0 Es); now rewrite flat_rev).
  pose proof (xk_rx _ _ _ _ _ _ _ _ _ _ _ _ _ _ _ _ _ _ _ _ _ _ K) as Rx. rewrite Epx in Rx. pose proof (xk_ry _ _ _ _ _ _ _ _ _ _ _ _ _ _ _ _ _ _ _ _ _ _ K) as Ry.
  assert (Hw : forall t, In t (t0 :: map fst lu) -> In t (IsoKY.ws Fs ea)). { intros t Ht. rewrite Ews. apply in_app_iff. right. destruct Ht as [<-|Ht]; [now left|]. right. apply in_app_iff. right. apply in_fl'. apply in_map_iff in Ht. destruct Ht as (q & <- & Hq). exists q. auto. }
  pose proof (ws_vs g0 a d G Ad D b Tu DT Lf Fs HFs w NW ea eb mid ER) as WV. pose proof (ws_arc g0 a d G Ad D b Tu DT Lf Fs HFs ea eb mid ER) as WA.
  assert (Hpx : prim (nb s t0)) by (destruct (WV t0 (Hw t0 (or_introl eq_refl))) as [Q _]; apply in_mem in Q; apply Q).
  assert (Hlu : lu <> []) by (unfold lu; destruct l; discriminate).
  assert (Mk : marked (fl s) F' (map fst lu)). { eapply marked_mem; [exact (xk_mk _ _ _ _ _ _ _ _ _ _ _ _ _ _ _ _ _ _ _ _ _ _ K)|]. intros q. rewrite Es, removelast_last. unfold lu. rewrite Eml, map_rev. cbn [In]. rewrite !in_app_iff, <- !in_rev. cbn [In]. tauto. }
  pose proof (xk_rp _ _ _ _ _ _ _ _ _ _ _ _ _ _ _ _ _ _ _ _ _ _ K) as Hr. pose proof (xk_ty _ _ _ _ _ _ _ _ _ _ _ _ _ _ _ _ _ _ _ _ _ _ K) as Ht.
  exists g', F', (nb s t0), (nb s u), (map fst lu). rewrite Epx in E1. split; [exact E1|]. split; [exact Hr|]. split; [exact Mk|]. split; [exact Ht|]. split.
  { constructor; auto.
    - replace (nb s u) with (nb s (last (map fst lu) t0)) by (unfold lu; rewrite Eml, last_snoc; reflexivity). apply chain_of; [intros e He; apply WA, Hw, He|exact Hsrc].
    - unfold lu. rewrite Eml. destruct (map fst l); discriminate.
    - unfold lu. rewrite Eml, removelast_last. intros e He. assert (Hi : In e (map fst lu)) by (unfold lu; rewrite Eml; apply in_app_iff; now left). destruct (WV e (Hw e (or_intror Hi))) as (Q1 & Q2 & _). split; [auto|]. split; [auto|].
      assert (Hf : In e (fl' l)) by (apply in_fl'; apply in_map_iff in He; destruct He as (q & <- & Hq); exists q; auto). destruct (Hint e ltac:(apply in_app_iff; now right)) as [Q|Q]; [|intros Q'; apply Q; now right]. exfalso. change (NoDup (nb s t0 :: map (nb s) (map fst lu))) in Nq. apply NoDup_cons_iff in Nq. apply (proj1 Nq). rewrite <- Q. now apply in_map. }
  destruct (kz g0 a d L G Ad SO D b Tu DT Lf f stk Fs HFs Hnc w NW ea eb mid ER Ea t0 c0 lu u rest T1 l eq_refl Ews Nq Hsrc Hcl Hlu Hout Hint Hpx g' F' Hr Mk) as [[E2 Zm]|(g2 & F2 & z & Zp & E2 & H2 & M2 & T2 & Pz)].
  - intros z Hz Nz. rewrite Ht. apply T00; [auto|intros Q; apply Nz; rewrite EL; rewrite in_app_iff in *; cbn [In] in *; rewrite ?in_app_iff in *; tauto|intros Q; apply Nz; rewrite EL; repeat (rewrite in_app_iff in * || cbn [In] in *); tauto].
  - left. split; [exact E2|exact Zm].
  - right. exists g2, F2, z, Zp. split; [auto|]. split; [auto|]. split; [auto|]. split; [intros q; now rewrite T2|]. destruct Pz. constructor; auto.
Qed.
End Z.
