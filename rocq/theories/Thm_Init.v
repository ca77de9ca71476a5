(** * Thm_Init: C44 (failed initialisation) and C54 (failed capacity increase). *)
From Verif Require Import Base BaseP InitM InitSpec InitP.

(** ** Running examples *)
Definition after_new (orc : Z -> bool) (f : heap -> mgraph -> bool) : bool :=
  match gp_New orc empty_heap with Ret (h, Some m) => f h m | _ => false end.
Definition after_op (orc : Z -> bool) (o : mop) (r : Z) (f : heap -> mgraph -> bool) (h : heap) (m : mgraph) : bool :=
  match mrun1 orc o h m with Ret (h, m, r') => (r' =? r) && f h m | _ => false end.
Definition is_UB {A} (x : res A) : bool := match x with UB => true | _ => false end.

Lemma after_new_ok orc f : after_new orc f = true -> exists h m, gp_New orc empty_heap = Ret (h, Some m) /\ f h m = true.
Proof. unfold after_new. destruct (gp_New orc empty_heap) as [(h, [m|])| |]; try discriminate. eauto. Qed.
Lemma after_op_ok orc o r f h m : after_op orc o r f h m = true ->
  exists h' m', mrun1 orc o h m = Ret (h', m', r) /\ f h' m' = true.
Proof.
  unfold after_op. destruct (mrun1 orc o h m) as [((h', m'), r')| |]; try discriminate.
  intros K. apply andb_prop in K. destruct K as (K & L). apply Z.eqb_eq in K. subst r'. eauto.
Qed.
Lemma is_UB_ok {A} (x : res A) : is_UB x = true -> x = UB.
Proof. destruct x; [discriminate|reflexivity|discriminate]. Qed.

(** ** C44.  Every failure point of a first initialisation.

    [orc k] says whether the k-th allocation request of the program succeeds;
    request 1 is the graph record, 2 the vertex array, 3 the vertex info array.
    The outcome is completely determined:
    - no failure: the graph owns all its blocks and gp_Free releases them all;
    - the vertex or vertex info array cannot be allocated: the graph is as
      gp_New() left it, and gp_Free releases everything;
    - any later failure: all blocks but the graph record have been released,
      but the vertex info pointer is kept, so gp_Free frees that block twice. *)
Theorem C44_init_failure_partial : forall orc N, 0 < N -> orc 1 = true ->
  exists h1 m,
    gp_New orc empty_heap = Ret (h1, Some m) /\ as_new h1 m /\
    wp (gp_InitGraph orc h1 m N) (fun '(h2, m2, r) =>
      ((forall k, 2 <= k <= 13 -> orc k = true) /\ r = C_OK /\ mN m2 = N /\ owns h2 m2 /\
       wp (gp_Free h2 m2) nothing_live)
      \/ ((orc 2 = false \/ orc 3 = false) /\ r = C_NOTOK /\ as_new h2 m2 /\
          wp (gp_Free h2 m2) nothing_live)
      \/ (orc 2 = true /\ orc 3 = true /\ r = C_NOTOK /\ live_is h2 [pG m2] /\
          pVI m2 <> NIL /\ gp_Free h2 m2 = UB)).
Proof. exact init_failure. Qed.
Print Assumptions C44_init_failure_partial.

(** As stated, C44 is false of the code: if only the edge array cannot be
    allocated, gp_InitGraph returns NOTOK and gp_Free frees a block twice. *)
Theorem C44_refuted : exists orc h1 m h2 m2,
  gp_New orc empty_heap = Ret (h1, Some m) /\
  gp_InitGraph orc h1 m 5 = Ret (h2, m2, C_NOTOK) /\
  gp_Free h2 m2 = UB.
Proof.
  set (o := fun k => negb (k =? 4)).
  destruct (after_new_ok o (after_op o (MInit 5) C_NOTOK (fun h m => is_UB (gp_Free h m)))) as (h1 & m & E1 & K);
    [vm_compute; reflexivity|].
  destruct (after_op_ok _ _ _ _ _ _ K) as (h2 & m2 & E2 & K2).
  exists o, h1, m, h2, m2. split; [exact E1|]. split; [exact E2|]. apply is_UB_ok. exact K2.
Qed.
Print Assumptions C44_refuted.

(** Initialising again after such a failure is no way out: if the first
    allocation fails this time, the same block is freed twice at once. *)
Theorem C44_retry_refuted : exists orc h1 m h2 m2,
  gp_New orc empty_heap = Ret (h1, Some m) /\
  gp_InitGraph orc h1 m 5 = Ret (h2, m2, C_NOTOK) /\
  gp_InitGraph orc h2 m2 5 = UB.
Proof.
  set (o := fun k => k <? 4).
  destruct (after_new_ok o (after_op o (MInit 5) C_NOTOK (fun h m => is_UB (gp_InitGraph o h m 5)))) as (h1 & m & E1 & K);
    [vm_compute; reflexivity|].
  destruct (after_op_ok _ _ _ _ _ _ K) as (h2 & m2 & E2 & K2).
  exists o, h1, m, h2, m2. split; [exact E1|]. split; [exact E2|]. apply is_UB_ok. exact K2.
Qed.
Print Assumptions C44_retry_refuted.

(** ** C44/C54, histories.  After a successful initialisation, any sequence of
    further (refused) initialisations and capacity requests, with any pattern of
    allocation failures, is free of invalid releases, and so is the final
    gp_Free; and if no proper capacity request failed, gp_Free leaves no block. *)
Theorem C54_capacity_histories_partial : forall orc N h1 m h2 m2 l,
  gp_New orc empty_heap = Ret (h1, Some m) ->
  gp_InitGraph orc h1 m N = Ret (h2, m2, C_OK) ->
  wp (mrun orc l h2 m2) (fun '(h3, m3, rs) =>
    wp (gp_Free h3 m3) (fun h4 =>
      (forall i r, nth_error l i = Some (MEnsure r) -> 0 < r -> Z.even r = true -> nth_error rs i = Some C_OK) ->
      nothing_live h4)).
Proof. exact capacity_histories. Qed.
Print Assumptions C54_capacity_histories_partial.

(** A failed request never changes the announced capacity or order; either the
    edge array is untouched, or the graph has lost it. *)
Theorem C54_capacity_failure_partial : forall orc N h1 m h2 m2 req h3 m3,
  gp_New orc empty_heap = Ret (h1, Some m) ->
  gp_InitGraph orc h1 m N = Ret (h2, m2, C_OK) ->
  gp_EnsureArcCapacity orc h2 m2 req = Ret (h3, m3, C_NOTOK) ->
  mN m3 = mN m2 /\ mCap m3 = mCap m2 /\
  ((pE m3 = pE m2 /\ live h3 (pE m3) = true) \/ (pE m3 = NIL /\ live h3 (pE m2) = true)).
Proof. exact capacity_failure. Qed.
Print Assumptions C54_capacity_failure_partial.

(** C54 is false of the code as stated: when the reallocation fails, the edge
    pointer is NULL although the graph still announces its capacity, and the old
    edge array stays allocated even after gp_Free. *)
Theorem C54_refuted : exists orc h1 m h2 m2 h3 m3 h4,
  gp_New orc empty_heap = Ret (h1, Some m) /\
  gp_InitGraph orc h1 m 5 = Ret (h2, m2, C_OK) /\
  gp_EnsureArcCapacity orc h2 m2 100 = Ret (h3, m3, C_NOTOK) /\
  pE m2 <> NIL /\ pE m3 = NIL /\ mCap m3 = 30 /\
  gp_Free h3 m3 = Ret h4 /\ live h4 (pE m2) = true.
Proof.
  set (o := fun k => negb (k =? 18)).
  destruct (after_new_ok o (after_op o (MInit 5) C_OK (fun h m => negb (pE m =? NIL) &&
     after_op o (MEnsure 100) C_NOTOK (fun h' m' => (pE m' =? NIL) && (mCap m' =? 30) &&
        match gp_Free h' m' with Ret h4 => live h4 (pE m) | _ => false end) h m))) as (h1 & m & E1 & K);
    [vm_compute; reflexivity|].
  destruct (after_op_ok _ _ _ _ _ _ K) as (h2 & m2 & E2 & K2). apply andb_prop in K2. destruct K2 as (K2 & K3).
  destruct (after_op_ok _ _ _ _ _ _ K3) as (h3 & m3 & E3 & K4). apply andb_prop in K4. destruct K4 as (K4 & K6).
  apply andb_prop in K4. destruct K4 as (K4 & K5).
  destruct (gp_Free h3 m3) as [h4| |] eqn:E4; try discriminate.
  exists o, h1, m, h2, m2, h3, m3, h4. split; [exact E1|]. split; [exact E2|]. split; [exact E3|].
  split; [apply Z.eqb_neq; apply negb_true_iff; exact K2|]. split; [apply Z.eqb_eq; exact K4|].
  split; [apply Z.eqb_eq; exact K5|]. split; [exact E4|exact K6].
Qed.
Print Assumptions C54_refuted.

(** A run that meets the hypotheses: every allocation succeeds up to the second
    reallocation. *)
Example capacity_case :
  let orc := fun k => k <? 23 in
  after_new orc (after_op orc (MInit 5) C_OK (after_op orc (MEnsure 100) C_OK (after_op orc (MInit 7) C_NOTOK
    (after_op orc (MEnsure 200) C_NOTOK (after_op orc (MEnsure 3) C_NOTOK (fun h m => (mCap m =? 100) &&
       match gp_Free h m with Ret _ => true | _ => false end)))))) = true.
Proof. vm_compute. reflexivity. Qed.
