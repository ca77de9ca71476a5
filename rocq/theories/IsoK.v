(** * IsoK: assembling paths into subdivisions of K2,3 and K4. *)
From Coq Require Import ZifyBool Permutation.
From Verif Require Import Base BaseP GraphRec GraphM GraphSpec LinkP GraphP DFSSpec TestSpec ObsSpec.

Section Run.
Variables (src dst : Z -> Z) (ok : Z -> Prop).
Hypothesis st : forall e, src (twin e) = dst e.
Hypothesis dt : forall e, dst (twin e) = src e.
Hypothesis okt : forall e, ok e -> ok (twin e).

Fixpoint pth (u : Z) (l : list Z) (w : Z) : Prop :=
  match l with [] => u = w | e :: l' => ok e /\ src e = u /\ pth (dst e) l' w end.
Definition run (u : Z) (I : list Z) (w : Z) (l : list Z) : Prop := pth u l w /\ map dst l = I ++ [w].

Lemma pth_app u l1 m l2 w : pth u l1 m -> pth m l2 w -> pth u (l1 ++ l2) w.
Proof. revert u. induction l1 as [|e l1 IH]; cbn [pth app]; intros u; [now intros ->|]. intros (A & B & C) D. auto. Qed.
Lemma pth_src u l w : pth u l w -> map src l ++ [w] = u :: map dst l.
Proof. revert u. induction l as [|e l IH]; cbn [pth map app]; intros u; [now intros ->|]. intros (A & <- & C). now rewrite (IH _ C). Qed.
Lemma pth_rev u l w : pth u l w -> pth w (map twin (rev l)) u.
Proof.
  revert u. induction l as [|e l IH]; cbn [pth map rev]; intros u; [auto|]. intros (A & <- & C). rewrite map_app. apply (pth_app _ _ (dst e)); [auto|]. cbn [map pth]. rewrite st, dt. auto.
Qed.
Lemma dst_rev l : map dst (map twin (rev l)) = rev (map src l).
Proof. rewrite map_map, <- map_rev. apply map_ext. auto. Qed.
Lemma run_src u I w l : run u I w l -> map src l = u :: I.
Proof. intros [A B]. apply pth_src in A. rewrite B in A. change (u :: I ++ [w]) with ((u :: I) ++ [w]) in A. now apply app_inj_tail in A as [A _]. Qed.
Lemma run_rev u I w l : run u I w l -> run w (rev I) u (map twin (rev l)).
Proof. intros R. pose proof (run_src _ _ _ _ R) as E. destruct R as [A B]. split; [now apply pth_rev|]. rewrite dst_rev, E. reflexivity. Qed.
Lemma run_one e : ok e -> run (src e) [] (dst e) [e].
Proof. intros H. split; cbn [pth map app]; auto. Qed.
Lemma run_app u I m J w l1 l2 : run u I m l1 -> run m J w l2 -> run u (I ++ m :: J) w (l1 ++ l2).
Proof. intros [A B] [C D]. split; [now apply (pth_app _ _ m)|]. rewrite map_app, B, D, <- !app_assoc. reflexivity. Qed.
(** A possibly empty path followed by a proper one. *)
Lemma run_pth u K m J w l1 l2 : pth u l1 m -> map dst l1 = K -> run m J w l2 -> run u (K ++ J) w (l1 ++ l2).
Proof. intros A <- [C D]. split; [now apply (pth_app _ _ m)|]. now rewrite map_app, D, <- app_assoc. Qed.

Lemma removelast_map (f : Z -> Z) l : map f (removelast l) = removelast (map f l).
Proof. induction l as [|x l IH]; [reflexivity|]. cbn [removelast map]. destruct l as [|y l]; [reflexivity|]. cbn [map] in *. now rewrite IH. Qed.

Variables (h : graph) (A : Z -> list Z).
Hypothesis Hin : forall e, ok e -> In e (A (src e)).
Hypothesis Hnb : forall e, ok e -> enbr h e = dst e.
Lemma path_of u l w : pth u l w -> path h A u l w.
Proof. revert u. induction l as [|e l IH]; cbn [pth path]; intros u; [auto|]. intros (B & <- & C). split; [auto|]. rewrite Hnb; auto. Qed.
Lemma pth_ok u l w : pth u l w -> forall e, In e l -> ok e.
Proof. revert u. induction l as [|x l IH]; cbn [pth]; intros u; [intros _ e []|]. intros (B & _ & C) e [<-|He]; eauto. Qed.
Lemma internals_of u I w l : run u I w l -> internals h l = I.
Proof.
  intros [B C]. unfold internals. assert (E : map (enbr h) (removelast l) = map dst (removelast l)).
  { apply map_ext_in. intros e He. apply Hnb. eapply pth_ok; [exact B|]. clear - He. induction l as [|x l IH]; [auto|]. cbn [removelast] in He. destruct l; [destruct He|]. destruct He as [->|He]; [now left|right; auto]. }
  rewrite E, removelast_map, C. apply removelast_last.
Qed.
Lemma sub_of cs E (PI : list (list Z * list Z)) :
  Forall2 (fun uv pI => run (fst uv) (snd pI) (snd uv) (fst pI)) E PI -> NoDup (cs ++ flat_map snd PI) ->
  (forall e, is_arc A e -> exists pI, In pI PI /\ (In e (fst pI) \/ In (twin e) (fst pI))) -> subdivision h A cs E.
Proof.
  intros F Nd Cv. exists (map fst PI). split; [|split].
  - clear Nd Cv. induction F as [|uv pI E PI R F IH]; cbn [map]; constructor; [|auto]. apply path_of. apply R.
  - replace (flat_map (internals h) (map fst PI)) with (flat_map snd PI); [exact Nd|]. clear Nd Cv. induction F as [|uv pI E PI R F IH]; [reflexivity|]. cbn [map flat_map]. rewrite IH. f_equal. symmetry. eapply internals_of, R.
  - intros e He. destruct (Cv e He) as (pI & P1 & P2). exists (fst pI). split; [now apply in_map|exact P2].
Qed.

Lemma k23_of r w x y m lrx lry lrm lwx lwy lwm Iwx Iwy Irm Iwm :
  run r [] x lrx -> run r [] y lry -> run r Irm m lrm -> run w Iwx x lwx -> run w Iwy y lwy -> run w Iwm m lwm ->
  NoDup ([r; w; x; y; m] ++ Irm ++ Iwx ++ Iwy ++ Iwm) ->
  (forall e, is_arc A e -> In e (lrx ++ lry ++ lrm ++ lwx ++ lwy ++ lwm) \/ In (twin e) (lrx ++ lry ++ lrm ++ lwx ++ lwy ++ lwm)) -> bipartite_subdivision h A 2 3.
Proof.
  intros R1 R2 R3 R4 R5 R6 Nd Cv. exists [r; w], [x; y; m]. split; [reflexivity|]. split; [reflexivity|].
  apply (sub_of _ _ [(lrx, []); (lry, []); (lrm, Irm); (lwx, Iwx); (lwy, Iwy); (lwm, Iwm)]).
  - cbn [list_prod map app]. repeat (constructor; [assumption|]). constructor.
  - cbn [flat_map snd app]. rewrite app_nil_r. exact Nd.
  - intros e He. assert (P : forall z, In z (lrx ++ lry ++ lrm ++ lwx ++ lwy ++ lwm) -> exists pI, In pI [(lrx, @nil Z); (lry, []); (lrm, Irm); (lwx, Iwx); (lwy, Iwy); (lwm, Iwm)] /\ In z (fst pI)).
    { intros z Hz. rewrite !in_app_iff in Hz. destruct Hz as [Hz|[Hz|[Hz|[Hz|[Hz|Hz]]]]];
        [exists (lrx, [])|exists (lry, [])|exists (lrm, Irm)|exists (lwx, Iwx)|exists (lwy, Iwy)|exists (lwm, Iwm)]; (split; [cbn [In]; tauto|exact Hz]). }
    destruct (Cv e He) as [Q|Q]; destruct (P _ Q) as (pI & P1 & P2); exists pI; auto.
Qed.
Lemma k4_of a b c d lab lac lad lbc lbd lcd Iab Iac Iad Ibc Ibd Icd :
  run a Iab b lab -> run a Iac c lac -> run a Iad d lad -> run b Ibc c lbc -> run b Ibd d lbd -> run c Icd d lcd ->
  NoDup ([a; b; c; d] ++ Iab ++ Iac ++ Iad ++ Ibc ++ Ibd ++ Icd) ->
  (forall e, is_arc A e -> In e (lab ++ lac ++ lad ++ lbc ++ lbd ++ lcd) \/ In (twin e) (lab ++ lac ++ lad ++ lbc ++ lbd ++ lcd)) -> complete_subdivision h A 4.
Proof.
  intros R1 R2 R3 R4 R5 R6 Nd Cv. exists [a; b; c; d]. split; [reflexivity|].
  apply (sub_of _ _ [(lab, Iab); (lac, Iac); (lad, Iad); (lbc, Ibc); (lbd, Ibd); (lcd, Icd)]).
  - cbn [all_pairs map app]. repeat (constructor; [assumption|]). constructor.
  - cbn [flat_map snd]. rewrite app_nil_r. exact Nd.
  - intros e He. assert (P : forall z, In z (lab ++ lac ++ lad ++ lbc ++ lbd ++ lcd) -> exists pI, In pI [(lab, Iab); (lac, Iac); (lad, Iad); (lbc, Ibc); (lbd, Ibd); (lcd, Icd)] /\ In z (fst pI)).
    { intros z Hz. rewrite !in_app_iff in Hz. destruct Hz as [Hz|[Hz|[Hz|[Hz|[Hz|Hz]]]]];
        [exists (lab, Iab)|exists (lac, Iac)|exists (lad, Iad)|exists (lbc, Ibc)|exists (lbd, Ibd)|exists (lcd, Icd)]; (split; [cbn [In]; tauto|exact Hz]). }
    destruct (Cv e He) as [Q|Q]; destruct (P _ Q) as (pI & P1 & P2); exists pI; auto.
Qed.
End Run.
