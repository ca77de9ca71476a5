(** * C30-C32: extension dispatch, lookup and duplication. *)
From Verif Require Import Base BaseP ExtM ExtSpec ExtP.

(** Any history of attaching, detaching (in any order) and freeing over any number of graphs runs
    without undefined behaviour, answers as documented, and afterwards every virtual call on every
    graph runs the overloads of the extensions still attached, most recent first, then the
    library's function; with nothing attached the graph's table is the original one. *)
Theorem C30_dispatch :
  forall (os : list xop),
    Forall xop_valid os ->
    exists s,
      xrun xinit os = Ret (xanswers none_attached (fun _ => false) os, s) /\
      forall gi k, 0 <= k < NUMF ->
        invoke s gi k = Ret (dispatch (xspec_run none_attached os gi) k) /\
        (xspec_run none_attached os gi = [] -> efn (xg s gi) k = FBase k).
Proof.
  intros os Hv. destruct (xrun_ok os _ _ _ xinv_init Hv) as (s & kn & E & H).
  exists s. split; [exact E|]. intros gi k Hk. split.
  - eapply invoke_ok; eauto.
  - intros E0. pose proof (xi_chain _ _ _ H gi k Hk) as HC. rewrite E0 in HC.
    destruct (eexts (xg s gi)); cbn [chain] in HC; tauto.
Qed.
Print Assumptions C30_dispatch.

(** Lookup by a module's identifier finds a context exactly if that module is attached to that
    graph, and then the context holding that attachment's own data; attaching it again is refused
    and leaves every graph, identifier and attached context as it was; different modules that
    were ever attached have different identifiers. *)
Theorem C31_lookup :
  forall (os : list xop) (rs : list Z) (s : sys),
    Forall xop_valid os -> xrun xinit os = Ret (rs, s) ->
    (forall gi m,
       has (xspec_run none_attached os gi) m = false <-> gp_FindExtension s gi (xmid s m) = None) /\
    (forall gi x, In x (xspec_run none_attached os gi) ->
       exists a c, gp_FindExtension s gi (xmid s (am x)) = Some a /\ xheap s a = Some c /\ cdata c = ad x) /\
    (forall gi m ov d, has (xspec_run none_attached os gi) m = true ->
       (forall k, 0 <= k < NUMF -> ov k = FNull \/ exists v, ov k = FOv m k v) ->
       exists s', attach s gi m ov d = Ret (C_NOTOK, s') /\ xg s' = xg s /\ xmid s' = xmid s /\
         forall gj m' a, gp_FindExtension s gj (xmid s m') = Some a -> xheap s' a = xheap s a) /\
    (forall gi gj m m', has (xspec_run none_attached os gi) m = true ->
       has (xspec_run none_attached os gj) m' = true -> m <> m' -> xmid s m <> xmid s m').
Proof.
  intros os rs s Hv E. destruct (xrun_ok os _ _ _ xinv_init Hv) as (s0 & kn & E0 & H).
  rewrite E in E0. injection E0 as _ <-. set (A := xspec_run none_attached os) in *. clearbody A. clear Hv E os rs.
  assert (Hfind : forall gi x, In x (A gi) ->
       exists a c, gp_FindExtension s gi (xmid s (am x)) = Some a /\ xheap s a = Some c /\ cdata c = ad x).
  { intros gi x Hin. pose proof (find_ok s A kn gi (am x) H) as HF.
    destruct (gp_FindExtension s gi (xmid s (am x))) as [a|].
    - destruct HF as (L1 & y & L2 & c & EL & Ey & Hc & Hd). exists a, c. split; [reflexivity|]. split; [auto|].
      assert (x = y); [|congruence].
      pose proof (xi_mods _ _ _ H gi) as HM. rewrite EL in *. rewrite map_app in HM. cbn [map] in HM.
      apply NoDup_remove_2 in HM. rewrite in_app_iff in HM.
      apply in_app_iff in Hin. destruct Hin as [Hin|[Hin|Hin]]; [|auto|]; exfalso; apply HM; rewrite Ey;
        [left|right]; now apply in_map.
    - exfalso. apply has_false in HF. apply HF. now apply in_map. }
  split; [|split; [exact Hfind|split]].
  - intros gi m. pose proof (find_ok s A kn gi m H) as HF. split.
    + intros Hh. destruct (gp_FindExtension s gi (xmid s m)) as [a|]; [|reflexivity].
      destruct HF as (L1 & x & L2 & c & EL & Ex & _).
      assert (has (A gi) m = true) by (apply has_true; eauto). congruence.
    + intros E. now rewrite E in HF.
  - intros gi m ov d Hh Hov. unfold attach, gp_AddExtension.
    match goal with |- context [gp_FindExtension ?s1 gi (xmid ?s1 m)] =>
      change (gp_FindExtension s1 gi (xmid s1 m)) with (gp_FindExtension s gi (xmid s m)) end.
    pose proof (find_ok s A kn gi m H) as HF.
    destruct (gp_FindExtension s gi (xmid s m)) as [a|]; [|congruence].
    cbn [bind]. change (C_NOTOK =? C_OK) with false. cbv iota. eexists. split; [reflexivity|].
    unfold set_heap. cbn [xg xmid xheap]. split; [reflexivity|]. split; [reflexivity|].
    intros gj m' b Hb. assert (Hlt : b < xnext s).
    { unfold gp_FindExtension in Hb. destruct (xmid s m' =? 0); [discriminate|].
      pose proof (xi_next _ _ _ H gj) as HN. revert Hb HN. generalize (eexts (xg s gj)).
      induction l as [|e l IH]; cbn [find_ext]; [discriminate|]. destruct (eid e =? xmid s m').
      - intros E HN. injection E as <-. apply HN. now left.
      - intros E HN. apply IH; auto. intros; apply HN; now right. }
    rewrite !upd_other by lia. reflexivity.
  - intros gi gj m m' Hm Hm' Hne E. apply Hne. apply (xi_inj _ _ _ H); [auto|].
    apply has_true in Hm. destruct Hm as (L1 & x & L2 & EL & <-).
    destruct (Forall2_in_r _ _ _ x (xi_lnk _ _ _ H gi)) as (e & _ & _ & Hn & _); [|auto].
    rewrite EL. apply in_or_app; right; now left.
Qed.
Print Assumptions C31_lookup.

(** Duplicating a graph: the duplicate and the original both dispatch to the attached extensions,
    the duplicate through contexts of its own; and detaching any number of extensions from the
    duplicate in the reverse order of attachment works on the duplicate and leaves the original
    (and every other graph) unchanged.  Missing from the full property: detaching in another
    order, and detaching after the original was changed or freed: see the refutations. *)
Theorem C32_duplicate_partial :
  forall (os : list xop) (rs : list Z) (s : sys) (dst src : Z) (n : nat),
    Forall xop_valid os -> xrun xinit os = Ret (rs, s) -> dst <> src ->
    (n <= length (xspec_run none_attached os src))%nat ->
    let A := xspec_run none_attached os in
    exists s' s'',
      copy_graph_exts s dst src = Ret (C_OK, s') /\
      xrun s' (map (fun a => XDetach dst (am a)) (firstn n (A src))) = Ret (repeat C_OK n, s'') /\
      (forall k, 0 <= k < NUMF ->
        invoke s' dst k = Ret (dispatch (A src) k) /\
        invoke s'' dst k = Ret (dispatch (skipn n (A src)) k) /\
        (forall gj, gj <> dst -> invoke s' gj k = Ret (dispatch (A gj) k) /\
                                 invoke s'' gj k = Ret (dispatch (A gj) k))) /\
      (forall m a b, gp_FindExtension s' src (xmid s' m) = Some a ->
                     gp_FindExtension s' dst (xmid s' m) = Some b -> a <> b).
Proof.
  intros os rs s dst src n Hv E Hne Hn A. destruct (xrun_ok os _ _ _ xinv_init Hv) as (s0 & kn & E0 & H).
  rewrite E in E0. injection E0 as _ <-. fold A in H, Hn. clearbody A. clear Hv E os rs.
  destruct (dup_ok s A kn dst src H Hne) as (s' & E' & D & Hoth & Hids & Hdis).
  destruct (lifo_ok dst n s' (upd A dst (A src)) kn D) as (s'' & E'' & D''); [now rewrite upd_same|].
  rewrite upd_same in E'', D''.
  exists s', s''. split; [exact E'|]. split; [exact E''|]. split.
  - intros k Hk. destruct D as [D _], D'' as [D'' _].
    pose proof (fun gj => invoke_ok _ _ _ gj k D Hk) as I1. pose proof (fun gj => invoke_ok _ _ _ gj k D'' Hk) as I2.
    split; [rewrite <- (invoke_own s' dst), I1, upd_same; reflexivity|].
    split; [rewrite <- (invoke_own s'' dst), I2, upd_same; reflexivity|].
    intros gj Hj. rewrite <- (invoke_own s' dst), <- (invoke_own s'' dst), I1, I2, !upd_other by auto. auto.
  - intros m a b Ha Hb.
    assert (HF : forall gj c, gp_FindExtension s' gj (xmid s' m) = Some c -> exists e, In e (eexts (xg s' gj)) /\ ectx e = c).
    { intros gj c Hc. unfold gp_FindExtension in Hc. destruct (xmid s' m =? 0); [discriminate|].
      revert Hc. generalize (eexts (xg s' gj)). induction l as [|e l IH]; cbn [find_ext]; [discriminate|].
      destruct (eid e =? xmid s' m); intros Hc; [exists e; split; [now left|congruence]|].
      destruct (IH Hc) as (e' & ? & ?). exists e'. split; [now right|auto]. }
    destruct (HF src a Ha) as (e & He & <-). destruct (HF dst b Hb) as (e' & He' & <-).
    rewrite Hoth in He by auto. intros E. exact (Hdis e e' He He' (eq_sym E)).
Qed.
Print Assumptions C32_duplicate_partial.

(** Overloads of slot 0 only. *)
Definition ov0 (m : Z) : Z -> fp := fun k => if k =? 0 then FOv m 0 0 else FNull.
Definition ov01 (m : Z) : Z -> fp := fun k => if (k =? 0) || (k =? 1) then FOv m k 0 else FNull.

(** False of the code: modules 1 and 2 both overload function 0 of graph 1; the graph is
    duplicated; module 1 is detached from the DUPLICATE.  The original's calls then no longer reach
    module 1, which is still attached to it, and a call on the duplicate runs into module 1's code,
    whose context is gone. *)
Theorem C32_detach_from_duplicate_refuted :
  exists s s' s'',
    xrun xinit [XAttach 1 1 (ov0 1) 10; XAttach 1 2 (ov0 2) 20] = Ret ([C_OK; C_OK], s) /\
    copy_graph_exts s 2 1 = Ret (C_OK, s') /\
    detach s' 2 1 = Ret (C_OK, s'') /\
    invoke s' 1 0 = Ret [FOv 2 0 0; FOv 1 0 0; FBase 0] /\
    invoke s'' 1 0 = Ret [FOv 2 0 0; FBase 0] /\
    invoke s'' 2 0 = UB.
Proof.
  eexists _, _, _. split; [vm_compute; reflexivity|]. split; [vm_compute; reflexivity|].
  split; [vm_compute; reflexivity|]. vm_compute. auto.
Qed.
Print Assumptions C32_detach_from_duplicate_refuted.

(** False of the code: once the original has been freed, detaching from the duplicate reads freed
    memory. *)
Theorem C32_original_freed_refuted :
  exists s s' s'',
    xrun xinit [XAttach 1 1 (ov0 1) 10] = Ret ([C_OK], s) /\
    copy_graph_exts s 2 1 = Ret (C_OK, s') /\
    gp_FreeExtensions s' 1 = Ret s'' /\
    invoke s'' 2 0 = Ret [FOv 1 0 0; FBase 0] /\
    detach s'' 2 1 = UB.
Proof.
  eexists _, _, _. split; [vm_compute; reflexivity|]. split; [vm_compute; reflexivity|].
  split; [vm_compute; reflexivity|]. vm_compute. auto.
Qed.
Print Assumptions C32_original_freed_refuted.

(** A history with three modules, two graphs, out-of-order detaching, a repeated attach and a
    detach of an unknown module. *)
Definition ext_history : list xop :=
  [XDetach 1 7; XAttach 1 1 (ov0 1) 10; XAttach 1 2 (ov01 2) 20; XAttach 2 2 (ov01 2) 21;
   XAttach 1 3 (ov0 3) 30; XAttach 1 2 (ov0 2) 99; XDetach 1 2].
Lemma ov0_valid m k : ov0 m k = FNull \/ exists v, ov0 m k = FOv m k v.
Proof. unfold ov0. destruct (Z.eqb_spec k 0) as [->|]; eauto. Qed.
Lemma ov01_valid m k : ov01 m k = FNull \/ exists v, ov01 m k = FOv m k v.
Proof. unfold ov01. destruct ((k =? 0) || (k =? 1)); eauto. Qed.
Example ext_history_valid : Forall xop_valid ext_history.
Proof.
  unfold ext_history. repeat (apply Forall_cons; [cbn [xop_valid]; auto using ov0_valid, ov01_valid|]). apply Forall_nil.
Qed.
Example ext_history_result :
  exists s, xrun xinit ext_history = Ret ([0; 1; 1; 1; 1; 0; 1], s) /\
    invoke s 1 0 = Ret [FOv 3 0 0; FOv 1 0 0; FBase 0] /\ invoke s 1 1 = Ret [FBase 1] /\
    invoke s 2 1 = Ret [FOv 2 1 0; FBase 1] /\
    map am (xspec_run none_attached ext_history 1) = [3; 1] /\
    map ad (xspec_run none_attached ext_history 2) = [21].
Proof. eexists. split; [vm_compute; reflexivity|]. vm_compute. auto. Qed.
