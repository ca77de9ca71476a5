(** * EmbFan: asked for an outerplanar embedding, every component is a cycle with non-crossing
    chords (see FanP), and merging and embedding keep it so. *)
From Coq Require Import ZifyBool Permutation.
From Verif Require Import Base BaseP GraphRec GraphM GraphSpec GSimp LinkP GraphP GraphP2 ListM ListSpec ListP DFSM DFSSpec TestP EmbM EmbSpec EmbP FaceP GeoP GeoP2 EmbInv EmbStep EmbTree EmbWalk.
From Verif Require Export FanP.

Definition nbrs (s : gv) (x : Z) : list Z := map (nb s) (rot s x).
Lemma ofan_ext n n' T L : (forall x, In x (T :: L) -> n' x = n x) -> ofan n T L -> ofan n' T L.
Proof.
  intros H O. constructor.
  - intros L1 x L2 EL. rewrite H by (right; rewrite EL; apply in_app_iff; right; now left). now apply (of_at _ _ _ O).
  - rewrite H by (now left). apply O.
  - rewrite H by (now left). apply O.
  - apply (nocross_incl n); [|apply O]. intros x y Hx. now rewrite H.
Qed.
Lemma cfan_ext n n' T L : L <> [] -> (forall x, In x (T :: L) -> n' x = n x) -> cfan n T L -> cfan n' T L.
Proof.
  intros NL H [O H1 H2]. constructor; [now apply (ofan_ext n)|rewrite H by (now left); auto|]. rewrite H; [auto|]. right. now apply hd_in.
Qed.
Lemma cfan_one n T c : n T = [c] -> n c = [T] -> cfan n T [c].
Proof.
  intros E1 E2. constructor; [constructor|now rewrite E1|cbn [hd]; now rewrite E2].
  - intros L1 x L2 E. destruct L1 as [|y L1]; [|destruct L1; discriminate]. injection E as <- <-. rewrite E2. cbn [app hd]. split; [apply sub_refl|]. split; [reflexivity|congruence].
  - rewrite E1. apply sub_refl.
  - now rewrite E1.
  - intros a b x d Id Ia Ib Ic. apply idx_lt in Id. cbn [length] in Id. pose proof (idx_nn [T; c] a). lia.
Qed.
Lemma cover_mono n n' L w : (forall x y, In x L -> In y (n x) -> In y (n' x)) -> cover n L w -> cover n' L w.
Proof. intros H (x & y & X1 & X2 & X3 & X4 & X5). exists x, y. auto 10. Qed.

Section Fan.
Variables (g0 : graph) (kids : Z -> list Z).
Hypothesis St : static g0 kids.
Local Notation N := (gN g0).
Local Notation p := (viParent (gVI g0)).
Local Notation prim := (prim (gN g0)).
Local Notation isroot := (isroot (gN g0)).
Local Notation geo := (geo (gN g0) (viParent (gVI g0))).
Local Notation act := (act g0).
Local Notation fsim := (fsim g0).
Local Notation vsof := (vsof (gN g0)).

Lemma nbrs_sym s : geob N p s -> symn (nbrs s).
Proof.
  intros G x y H. unfold nbrs in *. apply in_map_iff in H. destruct H as (e & <- & He). apply in_rot in He. destruct (g_twins _ _ _ G x e He) as [T1 T2].
  apply in_map_iff. exists (twin e). split; [auto|now apply in_rot].
Qed.
Lemma nbrs_comp C xs s R x y : geo C xs s -> isroot R -> adj s R <> [] -> In x (vsof s R) -> In y (nbrs s x) -> In y (vsof s R).
Proof. intros G HR NR Hx H. unfold nbrs in H. apply in_map_iff in H. destruct H as (e & <- & He). apply in_rot in He. apply (arc_comp N p _ _ _ _ _ _ G HR NR Hx He). Qed.
Lemma merge_nbrs a b R C' Z0 : geob N p (eV a) -> merge_rel g0 kids a b R C' Z0 ->
  (forall x, x <> Z0 -> x <> R -> nbrs (eV b) x = map (ren R Z0) (nbrs (eV a) x)) /\ nbrs (eV b) Z0 = map (ren R Z0) (nbrs (eV a) Z0) ++ map (ren R Z0) (nbrs (eV a) R).
Proof.
  intros G M. assert (K : forall x, map (nb (eV b)) (rot (eV a) x) = map (ren R Z0) (nbrs (eV a) x)).
  { intros x. unfold nbrs. rewrite map_map. apply map_ext_in. intros e He. apply in_rot in He. rewrite (mr_nb _ _ _ _ _ _ _ M). unfold ren. destruct (g_twins _ _ _ G x e He) as [T1 T2].
    destruct (inb_spec (twin e) (adj (eV a) R)) as [I|I].
    - destruct (g_twins _ _ _ G R _ I) as [T3 _]. rewrite twin_invol in T3. now rewrite T3, Z.eqb_refl.
    - destruct (Z.eqb_spec (nb (eV a) e) R) as [E|]; [|reflexivity]. rewrite E in T2. contradiction. }
  split.
  - intros x H1 H2. rewrite <- K. unfold nbrs, rot. now rewrite (mr_o _ _ _ _ _ _ _ M), (mr_adj _ _ _ _ _ _ _ M) by auto.
  - unfold nbrs at 1. rewrite (mr_rot _ _ _ _ _ _ _ M), map_app, !K. reflexivity.
Qed.

Definition fans (s : gv) : Prop := forall d, act s d -> cfan (nbrs s) (N + d) (X s (N + d)).
Definition fo (s : gv) (R : Z) (xs : list Z) : Prop := (forall d, act s d -> N + d <> R -> cfan (nbrs s) (N + d) (X s (N + d))) /\ ofan (nbrs s) R xs.
Lemma fans_fo s d : fans s -> act s d -> fo s (N + d) (X s (N + d)).
Proof. intros F A. split; [intros; now apply F|]. apply cf_open. now apply F. Qed.
Lemma act_isroot s d : act s d -> isroot (N + d).
Proof. intros (A & _). unfold GeoP.isroot, GeoP.prim in *. lia. Qed.

(** Merging the component of R, whose listed vertices are xs, into that of C' at its first vertex. *)
Lemma fo_merge a b R xs Z0 Q d c' : geo R xs (eV a) -> fo (eV a) R xs -> merge_rel g0 kids a b R (N + c') Z0 -> R = N + d -> act (eV a) d -> act (eV a) c' -> c' <> d ->
  B (eV a) Z0 = N + c' -> prim Z0 -> X (eV a) (N + c') = Z0 :: Q ->
  fo (eV b) (N + c') (xs ++ Z0 :: Q) /\ sub (nbrs (eV b) (N + c')) (tl (xs ++ Z0 :: Q)) /\ sub (nbrs (eV b) (hd NIL xs)) (tl (xs ++ Z0 :: Q)).
Proof.
  intros G [F1 F2] M ER Ad Ac' Nd BZ PZ EX. set (s := eV a) in *. set (t := eV b) in *. pose proof (g_base _ _ _ _ _ G) as G0.
  destruct (merge_nbrs a b R (N + c') Z0 G0 M) as [M1 M2]. fold s t in M1, M2.
  assert (HR : isroot R) by (rewrite ER; now apply (act_isroot s)). assert (HC : isroot (N + c')) by now apply (act_isroot s). assert (NCR : N + c' <> R) by lia.
  assert (NR : adj s R <> []) by (rewrite ER; apply Ad). assert (NC : adj s (N + c') <> []) by apply Ac'.
  destruct (g_half _ _ _ _ _ G HR) as (pre & segs & FS & Hh). pose proof (h_in _ _ _ _ _ _ _ Hh) as Hin. pose proof (h_nodup _ _ _ _ _ _ _ Hh) as Hnd. pose proof (h_ne _ _ _ _ _ _ _ Hh) as Hne.
  assert (Inn : forall R' x y, isroot R' -> adj s R' <> [] -> R' <> R -> In x (vsof s R') -> In y (nbrs s x) -> y <> R).
  { intros R' x y H1 H2 H3 Hx Hy. pose proof (nbrs_comp _ _ _ _ _ _ G H1 H2 Hx Hy) as Iy. intros ->. apply in_vsof in Iy. destruct Iy as [|[Q1 _]]; [congruence|]. unfold GeoP.prim, GeoP.isroot in *. lia. }
  assert (Oth : forall R' x, isroot R' -> adj s R' <> [] -> R' <> R -> In x (vsof s R') -> x <> Z0 -> nbrs t x = nbrs s x).
  { intros R' x H1 H2 H3 Hx Nx. rewrite M1; [|auto|].
    - apply ren_id. intros I. apply (Inn R' x R H1 H2 H3 Hx I eq_refl).
    - intros ->. apply in_vsof in Hx. destruct Hx as [|[Q1 _]]; [congruence|]. unfold GeoP.prim, GeoP.isroot in *. lia. }
  assert (Fc : full N s (N + c')) by (apply (g_full _ _ _ _ _ G); auto). destruct (f_half _ _ _ Fc) as (pre' & segs' & FS' & Hh'). rewrite EX in Hh'.
  pose proof (h_in _ _ _ _ _ _ _ Hh') as Hin'. pose proof (h_nodup _ _ _ _ _ _ _ Hh') as Hnd'.
  assert (Dj : forall x, In x xs -> ~ In x (Z0 :: Q)). { intros x H1 H2. destruct (Hin x H1) as [_ Q1]. destruct (Hin' x H2) as [_ Q2]. congruence. }
  assert (Ir : forall x, In x xs \/ In x (Z0 :: Q) -> x <> R /\ x <> N + c' /\ x <> NIL). { intros x H. assert (prim x) by (destruct H as [H|H]; [apply (Hin x H)|apply (Hin' x H)]). unfold GeoP.prim, GeoP.isroot, NIL in *. lia. }
  destruct (fan_merge (nbrs s) (nbrs t) R xs (N + c') Z0 Q) as (K1 & K2 & K3); auto.
  - constructor; [|constructor].
    + intros [Q1|Q1]; [congruence|]. apply in_app_iff in Q1. destruct (Ir R Q1); congruence.
    + intros Q1. apply in_app_iff in Q1. destruct (Ir _ Q1); tauto.
    + apply NoDup_app_intro; auto.
  - intros [Q1|[Q1|Q1]]; [unfold GeoP.isroot, NIL in *; pose proof (EmbTree.st_N _ _ St); lia|unfold GeoP.isroot, NIL in *; pose proof (EmbTree.st_N _ _ St); lia|]. apply in_app_iff in Q1. destruct (Ir _ Q1); tauto.
  - now apply nbrs_sym.
  - rewrite <- EX. apply F1; auto.
  - intros x Hx. apply M1; [|now apply (Ir x (or_introl Hx))]. intros ->. apply (Dj Z0 Hx). now left.
  - intros x [<-|Hx]; apply (Oth (N + c')); auto.
    + now left.
    + destruct (Ir Z0 (or_intror (or_introl eq_refl))). intuition congruence.
    + apply in_vsof. right. apply Hin'. now right.
    + intros ->. apply NoDup_cons_iff in Hnd'. tauto.
  - rewrite M2. f_equal; apply ren_id.
    + intros I. apply (Inn (N + c') Z0 R HC NC NCR); auto. apply in_vsof. auto.
    + intros I. pose proof (sub_in _ _ _ (of_T _ _ _ F2) I) as I2. destruct (Ir R (or_introl I2)). congruence.
  - split; [split|auto].
    + intros d1 A1 N1. assert (A1' : act s d1 /\ N + d1 <> R).
      { destruct A1 as (Q1 & Q2 & Q3). unfold t in Q3. assert (N2 : N + d1 <> R) by (intros E; rewrite E, (mr_adjR _ _ _ _ _ _ _ M) in Q3; congruence). split; [|auto]. split; [auto|]. split; [auto|].
        rewrite (mr_adj _ _ _ _ _ _ _ M) in Q3; auto. unfold GeoP.prim in *. lia. }
      destruct A1' as [A1' N2]. replace (X t (N + d1)) with (X s (N + d1)) by (unfold t; now rewrite (mr_X _ _ _ _ _ _ _ M)). pose proof (act_isroot _ _ A1') as HR1.
      assert (F3 : full N s (N + d1)) by (apply (g_full _ _ _ _ _ G); auto; apply A1'). destruct (f_half _ _ _ F3) as (pre3 & segs3 & FS3 & Hh3).
      apply (cfan_ext (nbrs s)); [apply (h_ne _ _ _ _ _ _ _ Hh3)| |now apply F1]. intros x Hx. assert (Ix : In x (vsof s (N + d1))).
      { destruct Hx as [<-|Hx]; [now left|]. apply in_vsof. right. now apply (h_in _ _ _ _ _ _ _ Hh3). }
      apply (Oth (N + d1)); auto; [apply A1'|]. intros ->. apply in_vsof in Ix. destruct Ix as [Q1|[_ Q1]]; [unfold GeoP.prim, GeoP.isroot in *; lia|congruence].
    + exact K1.
Qed.
(** Embedding the edge from the root to the first listed vertex. *)
Lemma fans_embed a b C c W Q f v l1 l2 : geo C (W :: Q) (eV a) -> fo (eV a) C (W :: Q) -> C = N + c -> act (eV a) c -> Q <> [] -> sub (nbrs (eV a) C) Q -> sub (nbrs (eV a) W) Q ->
  embed_rel a b C W Q f v l1 l2 -> nb (eV a) f = W -> (forall x, ~ In f (adj (eV a) x) /\ ~ In (twin f) (adj (eV a) x)) -> fans (eV b).
Proof.
  intros G [F1 F2] EC Ac NQ S1 S2 E Enb Nf. pose proof (g_base _ _ _ _ _ G) as G0. assert (HC : isroot C) by (rewrite EC; now apply (act_isroot (eV a))).
  destruct (g_half _ _ _ _ _ G HC) as (pre & segs & FS & Hh). pose proof (h_in _ _ _ _ _ _ _ Hh) as Hin. pose proof (h_nodup _ _ _ _ _ _ _ Hh) as Hnd.
  assert (WC : W <> C) by (destruct (Hin W (or_introl eq_refl)) as [Q1 _]; unfold GeoP.prim, GeoP.isroot in *; lia).
  assert (Nb : forall x, map (nb (eV b)) (rot (eV a) x) = nbrs (eV a) x).
  { intros x. apply map_ext_in. intros e He. apply in_rot in He. rewrite (er_nb _ _ _ _ _ _ _ _ _ E). destruct (Z.eqb_spec e (twin f)) as [->|]; [|auto]. destruct (Nf x). contradiction. }
  assert (Nr : forall x, nbrs (eV b) x = if x =? C then W :: nbrs (eV a) C else if x =? W then nbrs (eV a) W ++ [C] else nbrs (eV a) x).
  { intros x. unfold nbrs at 1. rewrite (er_rot _ _ _ _ _ _ _ _ _ E). destruct (Z.eqb_spec x C) as [->|N1]; [|destruct (Z.eqb_spec x W) as [->|N2]; [|apply Nb]].
    - cbn [map]. rewrite Nb, (er_nb _ _ _ _ _ _ _ _ _ E). rewrite eqb_false_neq by (intros Q1; symmetry in Q1; now apply twin_ne in Q1). now rewrite Enb.
    - rewrite map_app, Nb. cbn [map]. now rewrite (er_nb _ _ _ _ _ _ _ _ _ E), Z.eqb_refl. }
  intros d Ad. assert (Ad' : act (eV a) d).
  { destruct Ad as (A1 & A2 & A3). split; [auto|]. split; [auto|]. intros E0. destruct (adj (eV b) (N + d)) as [|e l] eqn:Ea; [congruence|]. assert (He : In e (adj (eV b) (N + d))) by (rewrite Ea; now left).
    apply (er_in _ _ _ _ _ _ _ _ _ E) in He. rewrite E0 in He. destruct He as [[]|[[Q1 _]|[Q1 _]]].
    - assert (d = c) by lia. subst d. destruct Ac as (_ & _ & Ac). congruence.
    - destruct (Hin W (or_introl eq_refl)) as [Q2 _]. unfold GeoP.prim in *. lia. }
  rewrite (er_X _ _ _ _ _ _ _ _ _ E). destruct (Z.eqb_spec (N + d) C) as [Ed|Ed].
  - rewrite Ed. apply (fan_close (nbrs (eV a))); auto.
    + constructor; [|auto]. intros I. destruct (Hin C I) as [Q1 _]. unfold GeoP.prim, GeoP.isroot in *. lia.
    + intros [Q1|I]; [unfold GeoP.isroot, NIL in *; pose proof (EmbTree.st_N _ _ St); lia|]. destruct (Hin NIL I) as [Q1 _]. unfold GeoP.prim, NIL in *. lia.
    + now rewrite Nr, Z.eqb_refl.
    + now rewrite Nr, Z.eqb_refl, (eqb_false_neq _ _ WC).
    + intros x Hx. rewrite Nr. destruct (Z.eqb_spec x C) as [->|].
      * exfalso. destruct (Hin C (or_intror Hx)) as [Q1 _]. unfold GeoP.prim, GeoP.isroot in *. lia.
      * destruct (Z.eqb_spec x W) as [->|]; [|auto]. apply NoDup_cons_iff in Hnd. tauto.
  - assert (F3 : full N (eV a) (N + d)) by (apply (g_full _ _ _ _ _ G); [now apply (act_isroot (eV a))|apply Ad'|auto]). destruct (f_half _ _ _ F3) as (pre3 & segs3 & FS3 & Hh3).
    apply (cfan_ext (nbrs (eV a))); [apply (h_ne _ _ _ _ _ _ _ Hh3)| |now apply F1]. intros x Hx. rewrite Nr.
    destruct Hx as [<-|Hx].
    + rewrite (eqb_false_neq _ _ Ed). rewrite eqb_false_neq; [auto|]. destruct (Hin W (or_introl eq_refl)) as [Q1 _]. unfold GeoP.prim in *. destruct Ad' as [Q2 _]. unfold GeoP.prim in *. lia.
    + destruct (h_in _ _ _ _ _ _ _ Hh3 x Hx) as [Q1 Q2]. rewrite eqb_false_neq by (unfold GeoP.prim, GeoP.isroot in *; lia). rewrite eqb_false_neq; [auto|]. intros ->. destruct (Hin W (or_introl eq_refl)). congruence.
Qed.

(** Mirroring components. *)
Lemma fans_sim s t : geo NIL [] s -> fans s -> fsim s t -> fans t.
Proof.
  intros G F S d Ad. apply (fsim_act _ _ _ _ S) in Ad. specialize (F d Ad). pose proof (act_isroot _ _ Ad) as HR. assert (F3 : full N s (N + d)) by (apply (g_full _ _ _ _ _ G); [auto|apply Ad|unfold GeoP.isroot, NIL in *; pose proof (EmbTree.st_N _ _ St); lia]).
  destruct (f_half _ _ _ F3) as (pre & segs & FS & Hh). pose proof (h_ne _ _ _ _ _ _ _ Hh) as Ne.
  assert (Iv : forall x, In x (N + d :: X s (N + d)) -> In x (vsof s (N + d))) by (intros x [<-|Hx]; [now left|apply in_vsof; right; now apply (h_in _ _ _ _ _ _ _ Hh)]).
  destruct (fs_o _ _ S (N + d) HR) as [[E K]|[E K]]; rewrite E.
  - apply (cfan_ext (nbrs s)); auto. intros x Hx. unfold nbrs, rot. now rewrite (fs_nb _ _ S), (fs_adj _ _ S), K by auto.
  - apply (cfan_rev (nbrs s)); auto.
    + apply nbrs_sym, G.
    + constructor; [|apply (h_nodup _ _ _ _ _ _ _ Hh)]. intros I. destruct (h_in _ _ _ _ _ _ _ Hh _ I) as [Q1 _]. unfold GeoP.prim, GeoP.isroot in *. lia.
    + intros I. destruct (h_in _ _ _ _ _ _ _ Hh _ I) as [Q1 _]. unfold GeoP.prim, NIL in *. lia.
    + intros x Hx. unfold nbrs, rot. rewrite (fs_nb _ _ S), (fs_adj _ _ S), K by auto. destruct (o s x); cbn [negb]; rewrite ?map_rev, ?rev_involutive; reflexivity.
    + intros x y. unfold nbrs. rewrite (fs_nb _ _ S), !in_map_iff. intros (e & E1 & E2). exists e. split; [auto|]. rewrite in_rot in *. now rewrite <- (fs_adj _ _ S).
Qed.
End Fan.
