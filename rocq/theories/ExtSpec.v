(** * ExtSpec: what attaching and detaching extensions should mean. *)
From Verif Require Import Base ExtM.

(** An attached extension: module, overloads, context data. *)
Record att := mkAtt { am : Z; aov : Z -> fp; ad : Z }.

(** Attached extensions of each graph, most recent first. *)
Definition attached := Z -> list att.
Definition none_attached : attached := fun _ => [].
Definition has (L : list att) (m : Z) : bool := existsb (fun a => am a =? m) L.

Definition xspec (A : attached) (o : xop) : attached :=
  match o with
  | XAttach gi m ov d => if has (A gi) m then A else upd A gi (mkAtt m ov d :: A gi)
  | XDetach gi m => upd A gi (filter (fun a => negb (am a =? m)) (A gi))
  | XFree gi => upd A gi []
  end.
Definition xspec_run (A : attached) (os : list xop) : attached := fold_left xspec os A.

(** Answers: attaching a module already attached is refused; detaching a module never attached to
    any graph (it has no identifier yet) is refused; [kn] tells which modules have one. *)
Definition xanswer (A : attached) (kn : Z -> bool) (o : xop) : Z :=
  match o with
  | XAttach gi m _ _ => if has (A gi) m then C_NOTOK else C_OK
  | XDetach _ m => if kn m then C_OK else C_NOTOK
  | XFree _ => C_OK
  end.
Definition xknown (kn : Z -> bool) (o : xop) : Z -> bool :=
  match o with XAttach _ m _ _ => upd kn m true | _ => kn end.
Fixpoint xanswers (A : attached) (kn : Z -> bool) (os : list xop) : list Z :=
  match os with
  | [] => []
  | o :: os' => xanswer A kn o :: xanswers (xspec A o) (xknown kn o) os'
  end.

(** Obligation of an extension module: its table contains its own functions, slot by slot. *)
Definition xop_valid (o : xop) : Prop :=
  match o with
  | XAttach _ m ov _ => forall k, 0 <= k < NUMF -> ov k = FNull \/ exists v, ov k = FOv m k v
  | _ => True
  end.

(** The documented dispatch: overloads of the attached extensions, most recent first, then the
    library's own function. *)
Definition dispatch (L : list att) (k : Z) : list fp :=
  filter (fun f => negb (is_null f)) (map (fun a => aov a k) L) ++ [FBase k].
