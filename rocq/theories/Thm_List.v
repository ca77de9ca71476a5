(** * C02: the list collection implements disjoint circular doubly linked lists. *)
From Verif Require Import Base ListM ListSpec ListP.

(** After any sequence of valid calls on a fresh collection: no out-of-bounds access, every list
    is circular and has exactly the documented content, lists not addressed are unchanged
    ([lspec] touches only the addressed list), and the two documented iteration patterns visit
    each list in order and in reverse order, each element once. *)
Theorem C02_list_collection :
  forall (jn jp : Z -> Z) (n : Z) (os : list lop),
    0 < n -> lhist_valid n no_lists os ->
    exists c s,
      LCNew jn jp n = Ret (Some c) /\
      lrun lstep (mkCl c (fun _ => NIL)) os = Ret s /\
      holds s (lspec_run no_lists os) /\
      forall i fuel, (length (lspec_run no_lists os i) < fuel)%nat ->
        forward LCGetNext fuel (cl_c s) (cl_heads s i) = Ret (lspec_run no_lists os i) /\
        backward LCGetPrev fuel (cl_c s) (cl_heads s i) = Ret (rev (lspec_run no_lists os i)).
Proof.
  intros jn jp n os Hn Hv. destruct (lcnew_ok jn jp n Hn) as (c & E & EN & Hz).
  assert (H0 : holds (mkCl c (fun _ => NIL)) no_lists) by (apply holds_empty, Hz; unfold NIL; lia).
  rewrite <- EN in Hv.
  destruct (run_refines lstep os lstep_refines (mkCl c (fun _ => NIL)) no_lists H0 Hv) as (s & Er & EN' & H).
  exists c, s. split; [exact E|]. split; [exact Er|]. split; [exact H|].
  cbn [cl_c] in EN'. intros i f Hf. split; [apply forward_ok; auto|apply backward_ok; auto; lia].
Qed.
Print Assumptions C02_list_collection.

(** The same for the macro build. *)
Theorem C02_list_collection_macros :
  forall (jn jp : Z -> Z) (n : Z) (os : list lop),
    0 < n -> lhist_valid n no_lists os ->
    exists c s,
      LCNew jn jp n = Ret (Some c) /\
      lrun mlstep (mkCl c (fun _ => NIL)) os = Ret s /\
      holds s (lspec_run no_lists os) /\
      forall i fuel, (length (lspec_run no_lists os i) < fuel)%nat ->
        forward mLCGetNext fuel (cl_c s) (cl_heads s i) = Ret (lspec_run no_lists os i) /\
        backward mLCGetPrev fuel (cl_c s) (cl_heads s i) = Ret (rev (lspec_run no_lists os i)).
Proof.
  intros jn jp n os Hn Hv. destruct (lcnew_ok jn jp n Hn) as (c & E & EN & Hz).
  assert (H0 : holds (mkCl c (fun _ => NIL)) no_lists) by (apply holds_empty, Hz; unfold NIL; lia).
  rewrite <- EN in Hv.
  destruct (run_refines mlstep os mlstep_refines (mkCl c (fun _ => NIL)) no_lists H0 Hv) as (s & Er & EN' & H).
  exists c, s. split; [exact E|]. split; [exact Er|]. split; [exact H|].
  cbn [cl_c] in EN'. intros i f Hf. split; [apply forward_ok; auto|apply backward_ok; auto; lia].
Qed.
Print Assumptions C02_list_collection_macros.

(** Copying a collection of the same size copies all its lists. *)
Theorem C02_copy_collection :
  forall (d : lcoll) (s : lclient) (ls : Z -> list Z),
    holds s ls -> lcN d = lcN (cl_c s) -> 0 < lcN d ->
    exists d', LCCopy d (cl_c s) = Ret d' /\ holds (mkCl d' (cl_heads s)) ls.
Proof.
  intros d s ls H EN Hp. destruct (lccopy_ok d (cl_c s) EN Hp) as (d' & E & EN' & Hc).
  exists d'. split; [exact E|]. destruct H as [Hh Hci Hn Hr Hd Hz]. split; cbn [cl_c cl_heads]; auto.
  - intros i. apply (circular_frame (cl_c s)); [auto|]. intros z Hin. apply Hc.
    pose proof (Hr i z Hin). lia.
  - intros i x Hx. rewrite EN'. eauto.
  - destruct (Hc NIL) as [_ ->]; [unfold NIL; lia|exact Hz].
Qed.
Print Assumptions C02_copy_collection.

(** A history meeting the hypotheses: two lists, all five calls, insertion before a head,
    deletion of a head, of an inner node and of a singleton. *)
Definition c02_history : list lop :=
  [LAppend 1 3; LPrepend 1 4; LAppend 1 5; LAfter 3 6; LBefore 4 7; LBefore 3 8;
   LPrepend 2 9; LDelete 1 4; LDelete 1 6; LDelete 2 9; LAppend 2 4; LAfter 4 1].
Example c02_hyps : lhist_valid 10 no_lists c02_history.
Proof.
  unfold c02_history. cbn [lhist_valid lop_valid].
  assert (F : forall ls x, 0 < x < 10 -> (forall j, ~ In x (ls j)) -> free_node 10 ls x)
    by (intros; split; auto).
  repeat match goal with
  | |- True => exact I
  | |- _ /\ _ => split
  | |- free_node _ _ _ => apply F; [lia|]; intros j; unfold lspec, no_lists, upd, insert_before;
      destruct (Z.eqb_spec j 1); destruct (Z.eqb_spec j 2); simpl; try lia
  end.
  all: try (exists 1; vm_compute; tauto).
  all: try (exists 2; vm_compute; tauto).
  all: vm_compute; tauto.
Qed.
Example c02_content :
  lspec_run no_lists c02_history 1 = [8; 3; 5; 7] /\ lspec_run no_lists c02_history 2 = [4; 1].
Proof. split; reflexivity. Qed.
