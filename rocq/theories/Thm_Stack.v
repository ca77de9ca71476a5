(** * C01: the stack is a LIFO with exact overflow/underflow behaviour. *)
From Verif Require Import Base StackM StackSpec StackP.

(** Checked build: for all capacities and all histories of calls on two fresh stacks, every
    answer is the one of the abstract bounded stack, there is no out-of-bounds access, and the
    final contents and capacities are the abstract ones. *)
Theorem C01_checked_stack_is_bounded_list :
  forall (junk : Z -> Z) (ca cb : Z) (h : list sop),
    0 <= ca -> 0 <= cb ->
    hist_ok sop_ok (mkL [] ca) (mkL [] cb) h = true ->
    exists A B,
      run_stk (chk_step junk) (sp_New junk ca) (sp_New junk cb) h
        = Ret (fst (spec_run (mkL [] ca) (mkL [] cb) h), (A, B)) /\
      content A = items (fst (snd (spec_run (mkL [] ca) (mkL [] cb) h))) /\
      content B = items (snd (snd (spec_run (mkL [] ca) (mkL [] cb) h))) /\
      scap A = lcap (fst (snd (spec_run (mkL [] ca) (mkL [] cb) h))) /\
      scap B = lcap (snd (snd (spec_run (mkL [] ca) (mkL [] cb) h))).
Proof.
  intros junk ca cb h Ha Hb Hok.
  destruct (run_srel junk h _ _ _ _ (srel_new junk ca Ha) (srel_new junk cb Hb) Hok)
    as (A & B & E & HA & HB).
  exists A, B. repeat split; [exact E|exact (srel_content _ _ HA)|exact (srel_content _ _ HB)|apply HA|apply HB].
Qed.
Print Assumptions C01_checked_stack_is_bounded_list.

(** Macro build: the same as the checked build on every history without over/underflow. *)
Theorem C01_macros_agree_in_bounds :
  forall (junk : Z -> Z) (ca cb : Z) (h : list sop),
    0 <= ca -> 0 <= cb ->
    hist_ok sop_ok (mkL [] ca) (mkL [] cb) h = true ->
    hist_ok sop_in_bounds (mkL [] ca) (mkL [] cb) h = true ->
    run_stk (mac_step junk) (sp_New junk ca) (sp_New junk cb) h
      = run_stk (chk_step junk) (sp_New junk ca) (sp_New junk cb) h.
Proof.
  intros junk ca cb h Ha Hb Hok Hin.
  exact (mac_run_eq junk h _ _ _ _ (srel_new junk ca Ha) (srel_new junk cb Hb) Hok Hin).
Qed.
Print Assumptions C01_macros_agree_in_bounds.

(** The caller obligation on sp_SetCurrentSize is needed: a negative size is accepted and the
    next (checked!) push writes before the array. *)
Theorem C01_negative_size_refuted :
  exists (s s1 : stk) (n : Z),
    s = sp_New (fun _ => 0) 3 /\ sp_SetCurrentSize s n = (C_OK, s1) /\ chk_Push s1 7 = UB.
Proof. exists (sp_New (fun _ => 0) 3), (s_setsize (sp_New (fun _ => 0) 3) (-1)), (-1). repeat split. Qed.
Print Assumptions C01_negative_size_refuted.

(** A history exercising every call meets the hypotheses of the first theorem ... *)
Definition c01_history : list sop :=
  [SPush true 5; SPush2 true 6 7; SPush true 8; SPop true; STop true; SGet true 1; SSet true 0 9;
   SCopyFromOther false; SPop2 false; SPop false; SPop false; SReplaceByDupOfOther true; SSetSize true 0;
   SSize true; SPush false 4; SPush2 false 1 1; SPopDiscard false; SPop2Discard1 false; SClear false;
   SPush2 true 1 2; SPop2Discard true; SSetSize true 99].
Example c01_hyps : hist_ok sop_ok (mkL [] 3) (mkL [] 2) c01_history = true.
Proof. reflexivity. Qed.
(** ... and one without over/underflow those of the second. *)
Example c01_hyps_mac :
  hist_ok sop_ok (mkL [] 3) (mkL [] 2) [SPush2 true 6 7; SPush true 8; SCopyFromOther false; SPop2 false; SGet true 1; SSet true 2 4] = true /\
  hist_ok sop_in_bounds (mkL [] 3) (mkL [] 2) [SPush2 true 6 7; SPush true 8; SCopyFromOther false; SPop2 false; SGet true 1; SSet true 2 4] = true.
Proof. split; reflexivity. Qed.
