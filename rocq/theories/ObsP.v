(** * ObsP: threads, the paths of degree two vertices that an arc starts. *)
From Coq Require Import ZifyBool ListDec.
From Verif Require Import Base BaseP GraphRec GraphM GraphSpec GSimp LinkP GraphP GraphP2 GraphP3 GraphP5
  DFSM DFSSpec TestM TestSpec ObsSpec.

Lemma not_NoDup_split (l : list Z) : ~ NoDup l -> exists a l1 l2 l3, l = l1 ++ a :: l2 ++ a :: l3.
Proof.
  induction l as [|b l IH]; intros N; [exfalso; apply N; constructor|].
  destruct (in_dec Z.eq_dec b l) as [I|I].
  - apply in_split in I as (l2 & l3 & ->). exists b, [], l2, l3. reflexivity.
  - destruct IH as (a & l1 & l2 & l3 & ->); [intros H; apply N; now constructor|]. exists a, (b :: l1), l2, l3. reflexivity.
Qed.

Section Threads.
Variables (g : graph) (adj : Z -> list Z).
Hypothesis R : rep g adj.
Notation hv := (enbr g).
Notation tv := (fun e => enbr g (twin e)).

Lemma arc_tail v e : In e (adj v) -> hv (twin e) = v.
Proof. intros H. apply (rep_twins _ _ R _ _ H). Qed.
Lemma arc_twin v e : In e (adj v) -> In (twin e) (adj (hv e)).
Proof. intros H. apply (rep_twins _ _ R _ _ H). Qed.
Lemma adj_nodup v : NoDup (adj v).
Proof. apply (ch_nodup _ _ (rep_chains _ _ R)). Qed.

Definition deg2 (v : Z) : Prop := length (adj v) = 2%nat.
Lemma deg2_dec v : {deg2 v} + {~ deg2 v}.
Proof. unfold deg2. apply Nat.eq_dec. Qed.
(** how a path that enters a vertex of degree two by e leaves it *)
Definition nxt (e : Z) : Z := match adj (hv e) with [a; b] => if a =? twin e then b else a | _ => NIL end.

Lemma nxt_ok v e : In e (adj v) -> deg2 (hv e) ->
  In (nxt e) (adj (hv e)) /\ nxt e <> twin e /\ forall x, In x (adj (hv e)) -> x = twin e \/ x = nxt e.
Proof.
  intros H D. pose proof (arc_twin _ _ H) as T. pose proof (adj_nodup (hv e)) as ND. unfold deg2 in D. unfold nxt.
  destruct (adj (hv e)) as [|a [|b [|c l]]]; try discriminate.
  inversion ND as [|? ? N1 N2]; subst. cbn [In] in *.
  destruct (Z.eqb_spec a (twin e)) as [->|N].
  - split; [auto|]. split; [intros ->; tauto|]. intros x [->|[->|[]]]; auto.
  - destruct T as [T|[T|[]]]; [congruence|]. subst b. split; auto. split; auto. intros x [->|[->|[]]]; auto.
Qed.
Lemma nxt_back v e : In e (adj v) -> deg2 (hv e) -> nxt (twin (nxt e)) = twin e.
Proof.
  intros H D. destruct (nxt_ok v e H D) as (N1 & N2 & N3).
  pose proof (arc_twin _ _ N1) as T. pose proof (arc_tail _ _ N1) as TT.
  destruct (nxt_ok _ _ T) as (M1 & M2 & M3); [rewrite TT; auto|]. rewrite TT, twin_invol in *.
  destruct (N3 _ M1); auto. congruence.
Qed.

(** ** Paths *)
Lemma path_app u l1 l2 v : path g adj u (l1 ++ l2) v <-> exists w, path g adj u l1 w /\ path g adj w l2 v.
Proof.
  revert u. induction l1 as [|e l1 IH]; intros u; cbn [app path].
  - split; [eauto|intros (w & -> & H); auto].
  - rewrite IH. split; [intros (H & w & A & B); exists w; auto|intros (w & (H & A) & B); eauto].
Qed.
Lemma path_rev u l v : path g adj u l v -> path g adj v (rev (map twin l)) u.
Proof.
  revert u. induction l as [|e l IH]; intros u; cbn [path map rev]; [auto|].
  intros [H P]. apply path_app. exists (hv e). split; auto. cbn [path]. split; [now apply arc_twin with u|]. now apply arc_tail.
Qed.
Lemma path_arcs u l v : path g adj u l v -> forall e, In e l -> exists w, In e (adj w).
Proof. revert u. induction l as [|a l IH]; intros u; cbn; [tauto|]. intros [H P] e [<-|He]; eauto. Qed.
Lemma path_last u l a v : path g adj u (l ++ [a]) v -> hv a = v.
Proof. intros H. apply path_app in H as (w & _ & H). cbn in H. tauto. Qed.
Lemma rev_map_twin l : rev (map twin (rev (map twin l))) = l.
Proof.
  rewrite map_rev, rev_involutive, map_map. erewrite map_ext; [apply map_id|]. intros; apply twin_invol.
Qed.
Lemma path_det u l v v' : path g adj u l v -> path g adj u l v' -> v = v'.
Proof. revert u. induction l as [|e l IH]; cbn; [congruence|]. intros u [_ A] [_ B]. eauto. Qed.

(** ** Threads *)
Definition thr (l : list Z) : Prop :=
  l <> [] /\ (forall l1 a b l2, l = l1 ++ a :: b :: l2 -> deg2 (hv a) /\ b = nxt a) /\
  (forall l1 a, l = l1 ++ [a] -> ~ deg2 (hv a)).

Lemma thr_one e : ~ deg2 (hv e) -> thr [e].
Proof.
  intros H. split; [discriminate|]. split.
  - intros [|? [|? ?]] a b l2 E; discriminate.
  - intros [|? [|? ?]] a E; inversion E; subst; auto.
Qed.
Lemma thr_cons e l : deg2 (hv e) -> thr (nxt e :: l) -> thr (e :: nxt e :: l).
Proof.
  intros D (_ & A & B). split; [discriminate|]. split.
  - intros [|x l1] a b l2 E; inversion E; subst; auto. eapply A; eauto.
  - intros [|x l1] a E; inversion E; subst. eapply B; eauto.
Qed.
Lemma thr_inv e l : thr (e :: l) -> (l = [] /\ ~ deg2 (hv e)) \/ (deg2 (hv e) /\ exists l', l = nxt e :: l' /\ thr l).
Proof.
  intros (_ & A & B). destruct l as [|b l].
  - left. split; auto. now apply (B [] e).
  - right. destruct (A [] e b l eq_refl) as [D ->]. split; auto. exists l. split; auto.
    split; [discriminate|]. split.
    + intros l1 a b l2 E. apply (A (e :: l1) a b l2). now rewrite E.
    + intros l1 a E. apply (B (e :: l1) a). now rewrite E.
Qed.
Lemma thr_suffix l1 a l2 : thr (l1 ++ a :: l2) -> thr (a :: l2).
Proof.
  intros (_ & A & B). split; [discriminate|]. split.
  - intros l3 x y l4 E. apply (A (l1 ++ l3) x y l4). now rewrite <- app_assoc, E.
  - intros l3 x E. apply (B (l1 ++ l3) x). now rewrite <- app_assoc, E.
Qed.
Lemma thr_det l : forall e l', thr (e :: l) -> thr (e :: l') -> l = l'.
Proof.
  induction l as [|b l IH]; intros e l' A B; apply thr_inv in A; apply thr_inv in B.
  - destruct A as [[_ N]|(D & ? & ? & _)]; [|discriminate]. destruct B as [[-> _]|[D _]]; tauto.
  - destruct A as [[E _]|(D & l1 & E & A)]; [discriminate|]. injection E as -> <-.
    destruct B as [[_ N]|(_ & l2 & -> & B)]; [tauto|]. f_equal. eauto.
Qed.
Lemma thr_rev u l v : path g adj u l v -> thr l -> ~ deg2 u -> thr (rev (map twin l)).
Proof.
  intros P (N & A & B) D. split; [|split].
  - intros E. apply N. rewrite <- (rev_map_twin l), E. reflexivity.
  - intros l1 a b l2 E.
    assert (El : l = rev (map twin l2) ++ twin b :: twin a :: rev (map twin l1)).
    { rewrite <- (rev_map_twin l), E. rewrite map_app, rev_app_distr. cbn [map rev]. now rewrite <- !app_assoc. }
    destruct (A _ _ _ _ El) as [D1 D2].
    assert (Hb : exists w, In (twin b) (adj w)) by (eapply path_arcs; [exact P|]; rewrite El; apply in_or_app; right; now left).
    destruct Hb as (w & Hb). pose proof (nxt_back _ _ Hb D1) as NB. rewrite <- D2, !twin_invol in NB.
    destruct (nxt_ok _ _ Hb D1) as (K1 & _). rewrite <- D2 in K1. apply arc_tail in K1. rewrite twin_invol in K1. rewrite K1. auto.
  - intros l1 a E.
    assert (El : l = twin a :: rev (map twin l1)).
    { rewrite <- (rev_map_twin l), E. rewrite map_app, rev_app_distr. reflexivity. }
    rewrite El in P. destruct P as [P _]. apply arc_tail in P. rewrite twin_invol in P. now rewrite P.
Qed.
Lemma thr_nodup l : thr l -> NoDup l.
Proof.
  intros T. destruct (ListDec.NoDup_dec Z.eq_dec l) as [|N]; auto. exfalso.
  apply not_NoDup_split in N as (a & l1 & l2 & l3 & ->).
  pose proof (thr_suffix _ _ _ T) as T1. pose proof T1 as T2. change (a :: l2 ++ a :: l3) with ((a :: l2) ++ a :: l3) in T2.
  apply thr_suffix in T2. pose proof (thr_det _ _ _ T1 T2) as E. apply (f_equal (@length Z)) in E. rewrite app_length in E. cbn in E. lia.
Qed.

(** A thread between vertices not of degree two. *)
Definition proper (u : Z) (l : list Z) (v : Z) : Prop := path g adj u l v /\ thr l /\ ~ deg2 u.
Lemma proper_end u l v : proper u l v -> ~ deg2 v.
Proof.
  intros (P & (N & _ & B) & _). destruct (exists_last N) as (l1 & a & ->). rewrite <- (path_last _ _ _ _ P). now apply (B l1 a).
Qed.
Lemma proper_rev u l v : proper u l v -> proper v (rev (map twin l)) u.
Proof. intros H. pose proof (proper_end _ _ _ H). destruct H as (P & T & D). split; [now apply path_rev|]. split; auto. eapply thr_rev; eauto. Qed.

Lemma proper_same u l v u' l' v' a : proper u l v -> proper u' l' v' -> In a l -> In a l' -> l = l'.
Proof.
  intros H H' I I'. apply in_split in I as (l1 & l2 & ->). apply in_split in I' as (l1' & l2' & ->).
  pose proof (proj1 (proj2 H)) as T. pose proof (proj1 (proj2 H')) as T'.
  pose proof (proj1 (proj2 (proper_rev _ _ _ H))) as V. pose proof (proj1 (proj2 (proper_rev _ _ _ H'))) as V'.
  apply thr_suffix in T, T'. rewrite (thr_det _ _ _ T T') in *. f_equal.
  rewrite map_app, rev_app_distr in V, V'. cbn [map rev] in V, V'. rewrite <- app_assoc in V, V'. cbn [app] in V, V'.
  apply thr_suffix in V, V'. pose proof (thr_det _ _ _ V V') as E.
  rewrite <- (rev_map_twin l1), E. apply rev_map_twin.
Qed.
Lemma proper_same_ends u l v u' v' : proper u l v -> proper u' l v' -> u = u' /\ v = v'.
Proof.
  intros (P & (N & _) & _) (P' & _). destruct l as [|e l]; [congruence|].
  destruct P as [A P], P' as [A' P']. split; [eapply (ch_disj _ _ (rep_chains _ _ R)); eauto|eapply path_det; eauto].
Qed.
Lemma proper_opposite u l v u' l' v' a : proper u l v -> proper u' l' v' -> In a l -> In (twin a) l' ->
  l' = rev (map twin l) /\ u = v' /\ v = u'.
Proof.
  intros H H' I I'. pose proof (proper_rev _ _ _ H) as HR.
  assert (E : l' = rev (map twin l)).
  { eapply proper_same; [exact H'|exact HR|exact I'|]. apply -> in_rev. now apply in_map. }
  split; auto. subst l'. destruct (proper_same_ends _ _ _ _ _ HR H'). auto.
Qed.

(** ** Every arc out of a vertex not of degree two starts a thread *)
Fixpoint steps (e : Z) (l : list Z) : Prop := (* l leads to e, last first *)
  match l with [] => True | a :: l' => deg2 (hv a) /\ e = nxt a /\ steps a l' end.
Lemma steps_split l1 : forall e a l2, steps e (l1 ++ a :: l2) -> steps a l2.
Proof. induction l1 as [|b l1 IH]; cbn; intros e a l2 H; [tauto|]. destruct H as (_ & _ & H). eauto. Qed.
Lemma steps_nodup u : ~ deg2 u -> forall l e, steps e l -> In (last (e :: l) NIL) (adj u) -> (forall x, In x (e :: l) -> exists w, In x (adj w)) ->
  NoDup (e :: l).
Proof.
  intros D. 
  assert (K : forall l2 e l3, steps e (l2 ++ e :: l3) -> In (last (e :: l2 ++ e :: l3) NIL) (adj u) -> 
     (forall x, In x (e :: l2 ++ e :: l3) -> exists w, In x (adj w)) -> False).
  { intros l2 e l3. revert l2 e. induction l3 as [|b l3 IH]; intros l2 e S L Ar.
    - (* e is the first arc: its tail is u, but it follows another arc *)
      replace (last (e :: l2 ++ [e]) NIL) with e in L by (change (e :: l2 ++ [e]) with ((e :: l2) ++ [e]); now rewrite last_last).
      destruct l2 as [|c l2]; cbn [app steps] in S.
      + destruct S as (S1 & S2 & _). destruct (nxt_ok u e L S1) as (N1 & _). rewrite <- S2 in N1. 
        rewrite (ch_disj _ _ (rep_chains _ _ R) _ _ _ L N1) in D. tauto.
      + destruct S as (S1 & S2 & _). destruct (Ar c) as (w & Hc); [right; now left|]. destruct (nxt_ok _ _ Hc S1) as (N1 & _). rewrite <- S2 in N1.
        rewrite (ch_disj _ _ (rep_chains _ _ R) _ _ _ L N1) in D. tauto.
    - pose proof (steps_split _ _ _ _ S) as S3. cbn [steps] in S3. destruct S3 as (B1 & B2 & B3).
      destruct (Ar b) as (wb & Hb); [right; apply in_or_app; right; right; now left|].
      pose proof (nxt_back _ _ Hb B1) as NB. rewrite <- B2 in NB.
      assert (Q : forall c, In c (e :: l2 ++ e :: b :: l3) -> deg2 (hv c) -> e = nxt c -> c = b).
      { intros c Hc D1 D2. destruct (Ar c Hc) as (wc & Hw). pose proof (nxt_back _ _ Hw D1) as NC. rewrite <- D2 in NC.
        rewrite <- (twin_invol c), <- NC, NB. apply twin_invol. }
      destruct l2 as [|c l2]; cbn [app] in *.
      + destruct S as (S1 & S2 & S3). assert (e = b) by (apply Q; [now left|auto|auto]). subst b.
        apply (IH [] e); [exact S3|exact L|]. intros x Hx. apply Ar. now right.
      + destruct S as (S1 & S2 & S3). assert (c = b) by (apply Q; [right; now left|auto|auto]). subst c.
        apply (IH (l2 ++ [e]) b); rewrite <- ?app_assoc; cbn [app]; auto. intros x Hx. apply Ar. now right. }
  intros l. induction l as [|a l IH]; intros e S L Ar; [constructor; [intros []|constructor]|].
  constructor.
  - intros I. apply in_split in I as (l2 & l3 & E). rewrite E in *. eapply K; eauto.
  - destruct S as (S1 & S2 & S3). apply IH; auto. intros x Hx. apply Ar. now right.
Qed.
Lemma steps_len u : ~ deg2 u -> forall l e, steps e l -> In (last (e :: l) NIL) (adj u) -> (forall x, In x (e :: l) -> exists w, In x (adj w)) ->
  (length (e :: l) < efuel g)%nat.
Proof.
  intros D l e S L Ar. pose proof (steps_nodup u D l e S L Ar) as ND.
  unfold efuel. apply Nat.lt_succ_r. 
  rewrite <- (Z.sub_0_r (gp_EdgeIndexBound g)). apply (NoDup_range_len 0 (gp_EdgeIndexBound g) (e :: l)); auto.
  intros x Hx. destruct (Ar x Hx) as (w & Hw). apply (ch_range _ _ (rep_chains _ _ R)) in Hw. lia.
Qed.
Lemma thread_exists u e : ~ deg2 u -> In e (adj u) -> exists l v, proper u (e :: l) v /\ (length (e :: l) < efuel g)%nat.
Proof.
  intros D He.
  assert (K : forall m e pre w, steps e pre -> In (last (e :: pre) NIL) (adj u) -> (forall x, In x (e :: pre) -> exists w, In x (adj w)) ->
     In e (adj w) -> (efuel g <= m + length (e :: pre))%nat ->
     exists l v, path g adj w (e :: l) v /\ thr (e :: l) /\ (length (e :: l) + length pre < efuel g)%nat).
  { induction m as [|m IH]; intros a pre w S L Ar Ha Hm; pose proof (steps_len u D pre a S L Ar) as Len; [lia|].
    destruct (deg2_dec (hv a)) as [D2|D2].
    - destruct (nxt_ok _ _ Ha D2) as (N1 & _). destruct (IH (nxt a) (a :: pre) (hv a)) as (l & v & P & T & B).
      + cbn [steps]. auto.
      + exact L.
      + intros x [<-|Hx]; eauto.
      + auto.
      + cbn [length] in *. lia.
      + exists (nxt a :: l), v. split; [cbn [path] in *; tauto|]. split; [now apply thr_cons|]. cbn [length] in *. lia.
    - exists [], (hv a). split; [cbn; auto|]. split; [now apply thr_one|]. cbn [length] in *. lia. }
  destruct (K (efuel g) e [] u) as (l & v & P & T & B); [exact Logic.I|exact He|intros x [<-|[]]; eauto|exact He|lia|].
  exists l, v. split; [split; auto|cbn [length] in *; lia].
Qed.
End Threads.
