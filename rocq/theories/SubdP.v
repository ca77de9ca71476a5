(** * SubdP: subdivisions give minors. *)
From Coq Require Import ZifyBool Permutation.
From Verif Require Import Base BaseP GraphRec GraphM GraphSpec GraphP DFSSpec DFSP TestSpec ObsSpec PlanSpec OutSpec.

Lemma pin_in (E : Z -> Z -> Prop) L x y : path_in E L x y -> In x L /\ In y L.
Proof. induction 1 as [H|y z H [I1 I2] He Hz]; auto. Qed.
Lemma pin_trans (E : Z -> Z -> Prop) L x y z : path_in E L x y -> path_in E L y z -> path_in E L x z.
Proof. intros H1 H2. induction H2; auto. eapply path_step; eauto. Qed.
Lemma pin_sym (E : Z -> Z -> Prop) L x y : (forall a b, E a b -> E b a) -> path_in E L x y -> path_in E L y x.
Proof.
  intros Es. induction 1 as [H|y z H IH He Hz]; [now constructor|]. apply (pin_trans _ _ _ y); [|auto]. apply (path_step _ _ _ z); [now constructor|auto|]. apply (pin_in _ _ _ _ H).
Qed.

Section Sub.
Variables (h : graph) (A : Z -> list Z).
Hypotheses (R : rep h A) (P : primary_edges h A).
Local Notation Ad := (adjacent h A).
Lemma adj_sym x y : Ad x y -> Ad y x.
Proof. intros (e & He & Ey). destruct (arc_twin h A R _ _ He) as (_ & B4 & _ & B6). rewrite Ey in B4. exists (twin e). auto. Qed.
Lemma adj_prim x y : Ad x y -> primary h x /\ primary h y.
Proof. intros (e & He & <-). apply (arc_primary h A R P _ _ He). Qed.
Lemma ints_cons e f p : internals h (e :: f :: p) = enbr h e :: internals h (f :: p).
Proof. reflexivity. Qed.
Lemma path_conn L c p : forall u v, path h A u p v -> path_in Ad L c u -> (forall x, In x (internals h p) -> In x L) -> forall x, In x (internals h p) -> path_in Ad L c x.
Proof.
  induction p as [|e [|f p] IH]; intros u v Hp Hu HL x Hx; try contradiction. rewrite ints_cons in *. destruct Hp as [He Hp].
  assert (K : path_in Ad L c (enbr h e)) by (apply (path_step _ _ _ u); [auto|exists e; auto|apply HL; now left]). destruct Hx as [<-|Hx]; [auto|].
  apply (IH (enbr h e) v); auto. intros y Hy. apply HL. now right.
Qed.
Lemma path_last p : forall u v, path h A u p v -> u <> v -> exists x, (x = u \/ In x (internals h p)) /\ Ad x v.
Proof.
  induction p as [|e [|f p] IH]; intros u v Hp Ne.
  - cbn in Hp. contradiction.
  - destruct Hp as [He Hp]. cbn in Hp. exists u. split; [auto|]. exists e. auto.
  - destruct Hp as [He Hp]. rewrite ints_cons. destruct (Z.eq_dec (enbr h e) v) as [E|E].
    + exists u. split; [auto|]. exists e. auto.
    + destruct (IH _ _ Hp E) as (x & [-> |Hx] & Hv); [exists (enbr h e)|exists x]; (split; [right; cbn [In]; auto|auto]).
Qed.
Lemma path_prim p : forall u v x, path h A u p v -> In x (internals h p) -> primary h x.
Proof.
  induction p as [|e [|f p] IH]; intros u v x Hp Hx; try contradiction. rewrite ints_cons in Hx. destruct Hp as [He Hp]. destruct Hx as [<-|Hx]; [apply (adj_prim u); exists e; auto|]. apply (IH _ _ _ Hp Hx).
Qed.
Lemma combine_disj (l : list ((Z * Z) * list Z)) (f : list Z -> list Z) q q' x :
  NoDup (flat_map (fun q => f (snd q)) l) -> In q l -> In q' l -> In x (f (snd q)) -> In x (f (snd q')) -> q = q'.
Proof.
  induction l as [|r l IH]; cbn [flat_map]; intros Nd H1 H2 X1 X2; [destruct H1|].
  assert (K : forall q, In q l -> In x (f (snd q)) -> In x (f (snd r)) -> False).
  { intros q0 I0 X0 Xr. apply in_split in Xr. destruct Xr as (a & b & E). rewrite E, <- app_assoc in Nd. apply NoDup_remove_2 in Nd. apply Nd. rewrite !in_app_iff. right; right. apply in_flat_map. eauto. }
  assert (Nl : NoDup (flat_map (fun q => f (snd q)) l)) by (clear - Nd; induction (f (snd r)) as [|y m IHm]; [auto|apply NoDup_cons_iff in Nd; apply IHm, Nd]).
  destruct H1 as [<-|H1], H2 as [<-|H2]; [auto|exfalso; eauto|exfalso; eauto|auto].
Qed.
Lemma subd_sets cs E : subdivision h A cs E -> (forall u v, In (u, v) E -> In u cs /\ In v cs /\ u <> v) -> (forall c, In c cs -> exists uv, In uv E /\ (fst uv = c \/ snd uv = c)) ->
  exists S : Z -> list Z, (forall c, In c cs -> conn_set Ad (S c) /\ forall x, In x (S c) -> primary h x) /\
    (forall c c' x, In c cs -> In c' cs -> c <> c' -> In x (S c) -> ~ In x (S c')) /\ (forall u v, In (u, v) E -> touching Ad (S u) (S v)).
Proof.
  intros (paths & F & Nd & _) HE Hc.
  assert (Ep : map snd (combine E paths) = paths /\ map fst (combine E paths) = E) by (clear - F; induction F as [|a b l l' H F [IH1 IH2]]; cbn [combine map]; [auto|]; cbn [fst snd]; rewrite IH1, IH2; auto).
  destruct Ep as [Ep Ee]. assert (HF : forall q, In q (combine E paths) -> path h A (fst (fst q)) (snd q) (snd (fst q))).
  { clear - F. induction F as [|a b l l' H F IH]; cbn [combine]; intros q [<-|Hq] || intros q []; auto. }
  set (qs := combine E paths) in *. assert (EF : flat_map (internals h) paths = flat_map (fun q => internals h (snd q)) qs) by (rewrite <- Ep; clear; induction qs as [|q l IH]; cbn [map flat_map]; [auto|now rewrite IH]).
  rewrite EF in Nd.
  assert (Nq : NoDup (flat_map (fun q => internals h (snd q)) qs)) by (clear - Nd; induction cs as [|y m IHm]; [auto|apply NoDup_cons_iff in Nd; apply IHm, Nd]).
  assert (Dj : forall c q, In c cs -> In q qs -> ~ In c (internals h (snd q))).
  { intros c q Ic Iq X. apply in_split in Ic. destruct Ic as (a & b & ->). rewrite <- app_assoc in Nd. cbn [app] in Nd. apply NoDup_remove_2 in Nd. apply Nd. rewrite !in_app_iff. right; right. apply in_flat_map. eauto. }
  set (S := fun c => c :: flat_map (fun q => if fst (fst q) =? c then internals h (snd q) else []) qs).
  assert (HS : forall c x, In x (S c) <-> x = c \/ exists q, In q qs /\ fst (fst q) = c /\ In x (internals h (snd q))).
  { intros c x. unfold S. cbn [In]. rewrite in_flat_map. split.
    - intros [<-|(q & Iq & X)]; [auto|right]. destruct (Z.eqb_spec (fst (fst q)) c) as [E1|E1]; [exists q; auto|destruct X].
    - intros [-> |(q & Iq & <- & X)]; [auto|right]. exists q. rewrite Z.eqb_refl. auto. }
  assert (Tq : forall u v, In (u, v) E -> exists x, In x (S u) /\ Ad x v).
  { intros u v Huv. assert (exists q, In q qs /\ fst q = (u, v)) as (q & Iq & Eq). { rewrite <- Ee in Huv. apply in_map_iff in Huv. destruct Huv as (q & E1 & E2). eauto. }
    destruct (HE _ _ Huv) as (_ & _ & Ne). pose proof (HF q Iq) as Hp. rewrite Eq in Hp. cbn [fst snd] in Hp. destruct (path_last _ _ _ Hp Ne) as (x & Hx & Hv). exists x. split; [|auto]. apply HS.
    destruct Hx as [-> |Hx]; [auto|right]. exists q. rewrite Eq. auto. }
  exists S. split; [|split].
  - intros c Ic. assert (K : forall x, In x (S c) -> path_in Ad (S c) c x).
    { intros x Hx. assert (I0 : path_in Ad (S c) c c) by (constructor; now left). apply HS in Hx. destruct Hx as [-> |(q & Iq & Eq & X)]; [auto|]. apply (path_conn (S c) c (snd q) (fst (fst q)) (snd (fst q))); [auto|now rewrite Eq| |auto].
      intros y Hy. apply HS. right. eauto. }
    split; [split; [discriminate|]|].
    + intros x y Hx Hy. apply (pin_trans _ _ _ c); [apply pin_sym; [exact adj_sym|auto]|auto].
    + intros x Hx. apply HS in Hx. destruct Hx as [-> |(q & Iq & Eq & X)]; [|exact (path_prim _ _ _ _ (HF q Iq) X)].
      destruct (Hc c Ic) as ((u, v) & Huv & Hcc). cbn [fst snd] in Hcc. destruct (Tq u v Huv) as (x & Hx & Hv). destruct Hcc as [-> | ->]; [|apply (adj_prim _ _ Hv)].
      assert (exists q, In q qs /\ fst q = (c, v)) as (q & Iq & Eq). { rewrite <- Ee in Huv. apply in_map_iff in Huv. destruct Huv as (q & E1 & E2). eauto. }
      pose proof (HF q Iq) as Hp. rewrite Eq in Hp. cbn [fst snd] in Hp. destruct (HE _ _ Huv) as (_ & _ & Ne). destruct (snd q) as [|e p]; [cbn in Hp; contradiction|]. destruct Hp as [He _]. apply (P _ _ He).
  - intros c c' x Ic Ic' Ne H1 H2. apply HS in H1, H2. destruct H1 as [-> |(q & Iq & Eq & X)], H2 as [E2|(q' & Iq' & Eq' & X')].
    + contradiction.
    + exact (Dj c q' Ic Iq' X').
    + subst x. exact (Dj c' q Ic' Iq X).
    + apply Ne. rewrite <- Eq, <- Eq'. rewrite (combine_disj qs (internals h) q q' x Nq Iq Iq' X X'). reflexivity.
  - intros u v Huv. destruct (Tq u v Huv) as (x & Hx & Hv). exists x, v. split; [auto|]. split; [now left|auto].
Qed.
Lemma all_pairs_in cs : NoDup cs -> (forall u v, In (u, v) (all_pairs cs) -> In u cs /\ In v cs /\ u <> v) /\
  (forall i j, (i < j < length cs)%nat -> In (nth i cs 0, nth j cs 0) (all_pairs cs)).
Proof.
  induction cs as [|c cs IH]; intros Nd; [split; [intros u v []|cbn [length]; lia]|]. apply NoDup_cons_iff in Nd. destruct Nd as [Nc Nd]. destruct (IH Nd) as [I1 I2]. cbn [all_pairs]. split.
  - intros u v H. apply in_app_iff in H. destruct H as [H|H].
    + apply in_map_iff in H. destruct H as (w & E & Hw). injection E as <- <-. cbn [In]. split; [auto|]. split; [auto|]. intros ->. contradiction.
    + destruct (I1 u v H) as (H1 & H2 & H3). cbn [In]. auto.
  - intros [|i] [|j] H; cbn [length] in H; try lia; cbn [nth]; apply in_app_iff; [left|right; apply I2; lia]. apply in_map, nth_In. lia.
Qed.
Lemma subd_complete n : (2 <= n)%nat -> complete_subdivision h A n -> exists S : Z -> list Z,
  (forall i, 1 <= i <= Z.of_nat n -> conn_set Ad (S i) /\ forall x, In x (S i) -> primary h x) /\
  (forall i j x, 1 <= i < j -> j <= Z.of_nat n -> In x (S i) -> ~ In x (S j)) /\
  (forall i j, 1 <= i < j -> j <= Z.of_nat n -> touching Ad (S i) (S j)).
Proof.
  intros Hn (cs & Len & Sb). assert (Nd : NoDup cs) by (destruct Sb as (ps & _ & Nd & _); clear - Nd; induction cs as [|y m IHm]; [constructor|apply NoDup_cons_iff in Nd; constructor; [intros Q; apply (proj1 Nd), in_app_iff; auto|apply IHm, Nd]]).
  destruct (all_pairs_in cs Nd) as [I1 I2]. destruct (subd_sets cs (all_pairs cs) Sb I1) as (S & S1 & S2 & S3).
  { intros c Ic. apply (In_nth _ _ 0) in Ic. destruct Ic as (k & Lk & <-). destruct k as [|k]; [exists (nth 0 cs 0, nth 1 cs 0); split; [apply I2; lia|auto]|exists (nth 0 cs 0, nth (Datatypes.S k) cs 0); split; [apply I2; lia|auto]]. }
  exists (fun i => S (nth (Z.to_nat (i - 1)) cs 0)). split; [|split].
  - intros i Hi. apply S1, nth_In. lia.
  - intros i j x H1 H2. apply S2; [apply nth_In; lia|apply nth_In; lia|]. intros Q. apply (proj1 (NoDup_nth cs 0)) in Q; [lia|auto|lia|lia].
  - intros i j H1 H2. apply S3, I2. lia.
Qed.
Lemma subd_bipartite m n : (1 <= m)%nat -> (1 <= n)%nat -> bipartite_subdivision h A m n -> exists S : Z -> list Z,
  (forall i, 1 <= i <= Z.of_nat (m + n) -> conn_set Ad (S i) /\ forall x, In x (S i) -> primary h x) /\
  (forall i j x, 1 <= i < j -> j <= Z.of_nat (m + n) -> In x (S i) -> ~ In x (S j)) /\
  (forall i j, 1 <= i <= Z.of_nat m -> Z.of_nat m + 1 <= j <= Z.of_nat (m + n) -> touching Ad (S i) (S j)).
Proof.
  intros Hm Hn (a & b & La & Lb & Sb). assert (Nd : NoDup (a ++ b)) by (destruct Sb as (ps & _ & Nd & _); clear - Nd; induction (a ++ b) as [|y q IHm]; [constructor|apply NoDup_cons_iff in Nd; constructor; [intros Q; apply (proj1 Nd), in_app_iff; auto|apply IHm, Nd]]).
  destruct (subd_sets (a ++ b) (list_prod a b) Sb) as (S & S1 & S2 & S3).
  - intros u v H. apply in_prod_iff in H. destruct H as [H1 H2]. rewrite !in_app_iff. split; [auto|]. split; [auto|]. intros ->. apply in_split in H1. destruct H1 as (x & y & ->). rewrite <- app_assoc in Nd. apply NoDup_remove_2 in Nd. apply Nd. rewrite !in_app_iff. auto.
  - intros c Hc. apply in_app_iff in Hc. destruct Hc as [Hc|Hc].
    + destruct b as [|y b]; [cbn [length] in Lb; lia|]. exists (c, y). split; [apply in_prod; [auto|now left]|auto].
    + destruct a as [|y a]; [cbn [length] in La; lia|]. exists (y, c). split; [apply in_prod; [now left|auto]|auto].
  - assert (Lab : length (a ++ b) = (m + n)%nat) by (rewrite app_length; lia). exists (fun i => S (nth (Z.to_nat (i - 1)) (a ++ b) 0)). split; [|split].
    + intros i Hi. apply S1, nth_In. lia.
    + intros i j x H1 H2. apply S2; [apply nth_In; lia|apply nth_In; lia|]. intros Q. apply (proj1 (NoDup_nth (a ++ b) 0)) in Q; [lia|auto|lia|lia].
    + intros i j H1 H2. apply S3. rewrite app_nth1, (app_nth2 a b) by lia. apply in_prod; apply nth_In; lia.
Qed.
Lemma subd_kuratowski : bipartite_subdivision h A 3 3 \/ complete_subdivision h A 5 -> kuratowski (primary h) Ad.
Proof.
  intros [H|H]; [right; destruct (subd_bipartite 3 3 ltac:(lia) ltac:(lia) H) as (S & S1 & S2 & S3)|left; destruct (subd_complete 5 ltac:(lia) H) as (S & S1 & S2 & S3)]; exists S; auto.
Qed.
Lemma subd_outer : bipartite_subdivision h A 2 3 \/ complete_subdivision h A 4 -> outer_obstruction (primary h) Ad.
Proof.
  intros [H|H]; [right; destruct (subd_bipartite 2 3 ltac:(lia) ltac:(lia) H) as (S & S1 & S2 & S3)|left; destruct (subd_complete 4 ltac:(lia) H) as (S & S1 & S2 & S3)]; exists S; auto.
Qed.
End Sub.

(** A pattern of K4 or K2,3 is carried along by an injective map that keeps adjacency. *)
Lemma outer_map (V V' : Z -> Prop) (E E' : Z -> Z -> Prop) (m : Z -> Z) :
  (forall x, V x -> V' (m x)) -> (forall x y, V x -> V y -> m x = m y -> x = y) -> (forall x y, V x -> V y -> E x y -> E' (m x) (m y)) ->
  outer_obstruction V E -> outer_obstruction V' E'.
Proof.
  intros HV Hi HE.
  assert (C : forall L, (forall x, In x L -> V x) -> conn_set E L -> conn_set E' (map m L)).
  { intros L HL [Ne Hc]. split; [destruct L; [contradiction|discriminate]|].
    intros x' y' Hx Hy. apply in_map_iff in Hx, Hy. destruct Hx as (x & <- & Hx), Hy as (y & <- & Hy). specialize (Hc x y Hx Hy).
    induction Hc as [Hx'|y z Hp IH He Hz]; [constructor; now apply in_map|].
    assert (Hy' : In y L) by (inversion Hp; auto). apply (path_step _ _ _ (m y)); [now apply IH|apply HE; auto|now apply in_map]. }
  assert (D : forall L L', (forall x, In x L -> V x) -> (forall x, In x L' -> V x) -> (forall x, In x L -> ~ In x L') -> forall x, In x (map m L) -> ~ In x (map m L')).
  { intros L L' HL HL' Hd x' H1 H2. apply in_map_iff in H1, H2. destruct H1 as (x & <- & Hx), H2 as (y & Eq & Hy). apply Hi in Eq; auto. subst. apply (Hd x); auto. }
  assert (T : forall L L', (forall x, In x L -> V x) -> (forall x, In x L' -> V x) -> touching E L L' -> touching E' (map m L) (map m L')).
  { intros L L' HL HL' (x & y & H1 & H2 & H3). exists (m x), (m y). split; [now apply in_map|]. split; [now apply in_map|]. apply HE; auto. }
  intros [(S & K1 & K2 & K3)|(S & K1 & K2 & K3)]; [left|right]; exists (fun i => map m (S i)).
  - split; [|split].
    + intros i Hi5. destruct (K1 i Hi5) as [B1 B2]. split; [now apply C|]. intros x Hx. apply in_map_iff in Hx. destruct Hx as (y & <- & Hy). auto.
    + intros i j x H1 H2. apply D; [apply K1; lia|apply K1; lia|intros y; apply K2; auto].
    + intros i j H1 H2. apply T; [apply K1; lia|apply K1; lia|auto].
  - split; [|split].
    + intros i Hi5. destruct (K1 i Hi5) as [B1 B2]. split; [now apply C|]. intros x Hx. apply in_map_iff in Hx. destruct Hx as (y & <- & Hy). auto.
    + intros i j x H1 H2. apply D; [apply K1; lia|apply K1; lia|intros y; apply K2; auto].
    + intros i j H1 H2. apply T; [apply K1; lia|apply K1; lia|auto].
Qed.

