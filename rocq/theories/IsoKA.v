(** * IsoKA: the paths marked for each kind of nonplanarity minor form a subdivision of K3,3 or K5. *)
From Coq Require Import ZifyBool Permutation.
From Verif Require Import Base BaseP GraphRec GraphM GraphSpec LinkP GraphP GraphP2 GraphP3 ListM DFSM DFSSpec DFSP TestSpec ObsSpec IsoK IsoKK.

Definition cnt (l : list Z) (q : Z) : nat := count_occ Z.eq_dec l q.
Definition c1 (a q : Z) : nat := if Z.eq_dec a q then 1 else 0.
Lemma cn_cons a l q : cnt (a :: l) q = (c1 a q + cnt l q)%nat.
Proof. unfold cnt, c1. cbn [count_occ]. destruct (Z.eq_dec a q); lia. Qed.
Lemma cn_app l m q : cnt (l ++ m) q = (cnt l q + cnt m q)%nat.
Proof. apply count_occ_app. Qed.
Lemma cn_nil q : cnt [] q = 0%nat. Proof. reflexivity. Qed.
Lemma cn_perm l m : Permutation l m -> forall q, cnt l q = cnt m q.
Proof. intros P. now apply (Permutation_count_occ Z.eq_dec). Qed.
Lemma cn_nd l : NoDup l <-> forall q, (cnt l q <= 1)%nat.
Proof. apply (NoDup_count_occ Z.eq_dec). Qed.
(** a list without repetition stays so when elements are left out and the rest is permuted *)
Ltac cnorm := repeat (rewrite ?cn_cons, ?cn_app, ?cn_nil in * ).
Ltac subl := let q := fresh "q" in apply cn_nd; intros q;
  repeat match goal with H : Permutation _ _ |- _ => pose proof (cn_perm _ _ H q); clear H end;
  repeat match goal with H : NoDup _ |- _ => pose proof (proj1 (cn_nd _) H q); clear H end; cnorm; lia.
Ltac perml := apply (Permutation_count_occ Z.eq_dec); let q := fresh "q" in intros q; 
  repeat match goal with H : Permutation _ _ |- _ => pose proof (cn_perm _ _ H q); clear H end; fold (cnt) in *;
  repeat match goal with |- context [count_occ Z.eq_dec ?l q] => change (count_occ Z.eq_dec l q) with (cnt l q) end; cnorm; lia.

Section Asm.
Variables (src dst : Z -> Z) (ok : Z -> Prop).
Hypothesis st : forall e, src (twin e) = dst e.
Hypothesis dt : forall e, dst (twin e) = src e.
Hypothesis okt : forall e, ok e -> ok (twin e).
Local Notation con := (con src dst ok).
Local Notation con0 := (con0 src dst ok).
Variables (h : graph) (A : Z -> list Z).
Hypothesis Hin : forall e, ok e -> In e (A (src e)).
Hypothesis Hnb : forall e, ok e -> enbr h e = dst e.
Definition covers (l : list Z) : Prop := forall e, is_arc A e -> In e l \/ In (twin e) l.
Lemma covers_incl l m : covers l -> incl l m -> covers m.
Proof. intros H I e He. destruct (H e He); auto. Qed.
Lemma con_inc u I w l m : incl m l -> con u I w l -> con u I w m.
Proof. apply con_perm. reflexivity. Qed.

Ltac covt Cv := apply (covers_incl _ _ Cv); let e := fresh "e" in intros e; repeat match goal with I : incl _ _ |- _ => specialize (I e) end; rewrite ?in_app_iff in *; tauto.

(** Two legs end at ancestors joined by the tree: they can be made to end at the lower one. *)
Lemma merge2 x y ux uy Jx Jy lx ly mx mn K t : con x Jx ux lx -> con y Jy uy ly -> con0 mx K mn t -> ux = mx /\ uy = mn \/ ux = mn /\ uy = mx ->
  exists Jx' Jy' lx' ly', con x Jx' mx lx' /\ con y Jy' mx ly' /\ Permutation (mx :: Jx' ++ Jy') (Jx ++ Jy ++ K ++ [mn]) /\ incl (lx ++ ly ++ t) (lx' ++ ly').
Proof.
  intros C1 C2 [(-> & -> & ->)|(I & C3 & P)] E.
  - assert (ux = mn /\ uy = mn) as [-> ->] by (destruct E as [[-> ->]|[-> ->]]; auto). exists Jx, Jy, lx, ly. split; [auto|]. split; [auto|]. split; [perml|]. rewrite app_nil_r. apply incl_refl.
  - apply (con_sym src dst ok st dt okt) in C3. destruct E as [[-> ->]|[-> ->]].
    + exists Jx, (mn :: Jy ++ I), lx, (ly ++ t). split; [auto|]. split; [now apply con_app|]. split; [perml|]. apply incl_refl.
    + exists (mn :: Jx ++ I), Jy, (lx ++ t), ly. split; [now apply con_app|]. split; [auto|]. split; [perml|]. intros e He. rewrite !in_app_iff in *. tauto.
Qed.

(** Minor A: r, w, mx against x, y, v. *)
Lemma asm_A r x w y v mx mn ux uy A0 A1 A2 A3 Jx Jy Jw I0 I1 K e0 e1 e2 e3 lx ly lw t0 t1 t2 :
  con r A0 x e0 -> con x A1 w e1 -> con w A2 y e2 -> con y A3 r e3 -> con x Jx ux lx -> con y Jy uy ly -> con w Jw v lw ->
  con r I0 v t0 -> con v I1 mx t1 -> con0 mx K mn t2 -> ux = mx /\ uy = mn \/ ux = mn /\ uy = mx ->
  NoDup ((r :: I0 ++ v :: I1 ++ K ++ [mn]) ++ (A0 ++ x :: A1 ++ w :: A2 ++ y :: A3) ++ Jx ++ Jy ++ Jw) ->
  covers (e0 ++ e1 ++ e2 ++ e3 ++ lx ++ ly ++ lw ++ t0 ++ t1 ++ t2) -> bipartite_subdivision h A 3 3.
Proof.
  intros C1 C2 C3 C4 C5 C6 C7 C8 C9 C10 E Nd Cv. destruct (merge2 x y ux uy Jx Jy lx ly mx mn K t2 C5 C6 C10 E) as (Jx' & Jy' & lx' & ly' & D1 & D2 & P & I).
  pose proof (con_sym src dst ok st dt okt) as Sy.
  refine (k33_of src dst ok h A Hin Hnb r w mx x y v A0 A3 I0 A1 A2 Jw Jx' Jy' I1 e0 e3 t0 e1 e2 lw lx' ly' t1 _ _ _ _ _ _ _ _ _ _ _); auto.
  - subl.
  - covt Cv.
Qed.

Lemma con0_sym u K w l : con0 u K w l -> exists K', con0 w K' u l /\ Permutation (K ++ [w]) (u :: K').
Proof.
  intros [(-> & -> & ->)|(I & C & P)]; [exists []; split; [now left|reflexivity]|]. exists (w :: I). split; [right; exists I; split; [now apply con_sym|reflexivity]|perml].
Qed.
Lemma ext z J u l K w t : con z J u l -> con0 u K w t -> exists J', con z J' w (l ++ t) /\ Permutation J' (J ++ K).
Proof.
  intros C [(-> & -> & ->)|(I & C' & P)]; [exists J; rewrite !app_nil_r; auto|]. exists (u :: J ++ I). split; [now apply con_app|perml].
Qed.
(** Three legs, brought to the middle one of three ancestors. *)
Definition order3 (a b c hi md lo : Z) : Prop :=
  (a = hi /\ b = md /\ c = lo) \/ (a = hi /\ c = md /\ b = lo) \/ (b = hi /\ a = md /\ c = lo) \/ (b = hi /\ c = md /\ a = lo) \/ (c = hi /\ a = md /\ b = lo) \/ (c = hi /\ b = md /\ a = lo).
Lemma merge3 x y z ux uy uz Jx Jy Jz lx ly lz hi md lo K1 K2 t1 t2 : con x Jx ux lx -> con y Jy uy ly -> con z Jz uz lz -> con0 hi K1 md t1 -> con0 md K2 lo t2 -> order3 ux uy uz hi md lo ->
  exists Jx' Jy' Jz' lx' ly' lz', con x Jx' md lx' /\ con y Jy' md ly' /\ con z Jz' md lz' /\ Permutation (md :: Jx' ++ Jy' ++ Jz') (Jx ++ Jy ++ Jz ++ K1 ++ K2 ++ [lo]) /\ incl (lx ++ ly ++ lz ++ t1 ++ t2) (lx' ++ ly' ++ lz').
Proof.
  intros C1 C2 C3 C4 C5 O. destruct (con0_sym _ _ _ _ C5) as (K2' & C6 & P2).
  assert (forall a Ja la b Jb lb c Jc lc, con a Ja hi la -> con b Jb md lb -> con c Jc lo lc -> exists Ja' Jb' Jc' la' lb' lc', con a Ja' md la' /\ con b Jb' md lb' /\ con c Jc' md lc' /\
    Permutation (md :: Ja' ++ Jb' ++ Jc') (Ja ++ Jb ++ Jc ++ K1 ++ K2 ++ [lo]) /\ incl (la ++ lb ++ lc ++ t1 ++ t2) (la' ++ lb' ++ lc')) as M.
  { intros a Ja la b Jb lb c Jc lc D1 D2 D3. destruct (ext _ _ _ _ _ _ _ D1 C4) as (Ja' & E1 & Q1). destruct (ext _ _ _ _ _ _ _ D3 C6) as (Jc' & E3 & Q3).
    exists Ja', Jb, Jc', (la ++ t1), lb, (lc ++ t2). split; [auto|]. split; [auto|]. split; [auto|]. split; [perml|]. intros e. rewrite !in_app_iff. tauto. }
  destruct O as [(-> & -> & ->)|[(-> & -> & ->)|[(-> & -> & ->)|[(-> & -> & ->)|[(-> & -> & ->)|(-> & -> & ->)]]]]].
  - destruct (M _ _ _ _ _ _ _ _ _ C1 C2 C3) as (J1 & J2 & J3 & l1 & l2 & l3 & E1 & E2 & E3 & P & I). exists J1, J2, J3, l1, l2, l3. split; [auto|]. split; [auto|]. split; [auto|]. split; [perml|]. intros e. specialize (I e). rewrite !in_app_iff in *. tauto.
  - destruct (M _ _ _ _ _ _ _ _ _ C1 C3 C2) as (J1 & J2 & J3 & l1 & l2 & l3 & E1 & E2 & E3 & P & I). exists J1, J3, J2, l1, l3, l2. split; [auto|]. split; [auto|]. split; [auto|]. split; [perml|]. intros e. specialize (I e). rewrite !in_app_iff in *. tauto.
  - destruct (M _ _ _ _ _ _ _ _ _ C2 C1 C3) as (J1 & J2 & J3 & l1 & l2 & l3 & E1 & E2 & E3 & P & I). exists J2, J1, J3, l2, l1, l3. split; [auto|]. split; [auto|]. split; [auto|]. split; [perml|]. intros e. specialize (I e). rewrite !in_app_iff in *. tauto.
  - destruct (M _ _ _ _ _ _ _ _ _ C2 C3 C1) as (J1 & J2 & J3 & l1 & l2 & l3 & E1 & E2 & E3 & P & I). exists J3, J1, J2, l3, l1, l2. split; [auto|]. split; [auto|]. split; [auto|]. split; [perml|]. intros e. specialize (I e). rewrite !in_app_iff in *. tauto.
  - destruct (M _ _ _ _ _ _ _ _ _ C3 C1 C2) as (J1 & J2 & J3 & l1 & l2 & l3 & E1 & E2 & E3 & P & I). exists J2, J3, J1, l2, l3, l1. split; [auto|]. split; [auto|]. split; [auto|]. split; [perml|]. intros e. specialize (I e). rewrite !in_app_iff in *. tauto.
  - destruct (M _ _ _ _ _ _ _ _ _ C3 C2 C1) as (J1 & J2 & J3 & l1 & l2 & l3 & E1 & E2 & E3 & P & I). exists J3, J2, J1, l3, l2, l1. split; [auto|]. split; [auto|]. split; [auto|]. split; [perml|]. intros e. specialize (I e). rewrite !in_app_iff in *. tauto.
Qed.

(** Minor B: r, w, md against x, y, b; b is where the ways from w to v and to another ancestor part. *)
Lemma asm_B r x w y b hi md lo ux uy uz A0 A1 A2 A3 Jx Jy Jb Jr Jz K1 K2 e0 e1 e2 e3 lx ly lb lr lz t1 t2 :
  con r A0 x e0 -> con x A1 w e1 -> con w A2 y e2 -> con y A3 r e3 -> con x Jx ux lx -> con y Jy uy ly -> con w Jb b lb -> con b Jr r lr -> con b Jz uz lz ->
  con0 hi K1 md t1 -> con0 md K2 lo t2 -> order3 ux uy uz hi md lo ->
  NoDup ((r :: K1 ++ K2 ++ [lo]) ++ (A0 ++ x :: A1 ++ w :: A2 ++ y :: A3) ++ Jx ++ Jy ++ Jb ++ b :: Jr ++ Jz) ->
  covers (e0 ++ e1 ++ e2 ++ e3 ++ lx ++ ly ++ lb ++ lr ++ lz ++ t1 ++ t2) -> bipartite_subdivision h A 3 3.
Proof.
  intros C1 C2 C3 C4 C5 C6 C7 C8 C9 C10 C11 E Nd Cv. destruct (merge3 x y b ux uy uz Jx Jy Jz lx ly lz hi md lo K1 K2 t1 t2 C5 C6 C9 C10 C11 E) as (Jx' & Jy' & Jz' & lx' & ly' & lz' & D1 & D2 & D3 & P & I).
  pose proof (con_sym src dst ok st dt okt) as Sy.
  refine (k33_of src dst ok h A Hin Hnb r w md x y b A0 A3 Jr A1 A2 Jb Jx' Jy' Jz' e0 e3 lr e1 e2 lb lx' ly' lz' _ _ _ _ _ _ _ _ _ _ _); auto.
  - subl.
  - covt Cv.
Qed.

(** Minor C: r, x, q against px, w, mx. *)
Lemma asm_C r x q px w mx mn ux uq B0 B1 B2 B3 B4 Jx Jq Jw I0 K e0 e1 e2 e3 e4 lx lq lw t0 t2 :
  con r B0 px e0 -> con px B1 x e1 -> con x B2 w e2 -> con q B3 px e3 -> con w B4 q e4 -> con x Jx ux lx -> con q Jq uq lq -> con w Jw r lw ->
  con r I0 mx t0 -> con0 mx K mn t2 -> ux = mx /\ uq = mn \/ ux = mn /\ uq = mx ->
  NoDup ((r :: I0 ++ K ++ [mn]) ++ (B0 ++ px :: B1 ++ x :: B2 ++ w :: B4 ++ q :: B3) ++ Jx ++ Jq ++ Jw) ->
  covers (e0 ++ e1 ++ e2 ++ e3 ++ e4 ++ lx ++ lq ++ lw ++ t0 ++ t2) -> bipartite_subdivision h A 3 3.
Proof.
  intros C1 C2 C3 C4 C5 C6 C7 C8 C9 C10 E Nd Cv. destruct (merge2 x q ux uq Jx Jq lx lq mx mn K t2 C6 C7 C10 E) as (Jx' & Jq' & lx' & lq' & D1 & D2 & P & I).
  pose proof (con_sym src dst ok st dt okt) as Sy.
  refine (k33_of src dst ok h A Hin Hnb r x q px w mx B0 Jw I0 B1 B2 Jx' B3 B4 Jq' e0 lw t0 e1 e2 lx' e3 e4 lq' _ _ _ _ _ _ _ _ _ _ _); auto.
  - subl.
  - covt Cv.
Qed.

(** Minor D: px, py, r against w, z, mx. *)
Lemma asm_D r px py w z mx mn ux uy B1 B2 Q1 Q2 Z1 Jx Jy Jw I0 K e1 e2 q1 q2 z1 lx ly lw t0 t2 :
  con px B1 w e1 -> con w B2 py e2 -> con px Q1 z q1 -> con z Q2 py q2 -> con z Z1 r z1 -> con px Jx ux lx -> con py Jy uy ly -> con w Jw r lw ->
  con r I0 mx t0 -> con0 mx K mn t2 -> ux = mx /\ uy = mn \/ ux = mn /\ uy = mx ->
  NoDup ((r :: I0 ++ K ++ [mn]) ++ (px :: B1 ++ w :: B2 ++ [py]) ++ Q1 ++ z :: Q2 ++ Z1 ++ Jx ++ Jy ++ Jw) ->
  covers (e1 ++ e2 ++ q1 ++ q2 ++ z1 ++ lx ++ ly ++ lw ++ t0 ++ t2) -> bipartite_subdivision h A 3 3.
Proof.
  intros C1 C2 C3 C4 C5 C6 C7 C8 C9 C10 E Nd Cv. destruct (merge2 px py ux uy Jx Jy lx ly mx mn K t2 C6 C7 C10 E) as (Jx' & Jy' & lx' & ly' & D1 & D2 & P & I).
  pose proof (con_sym src dst ok st dt okt) as Sy.
  refine (k33_of src dst ok h A Hin Hnb px py r w z mx B1 Q1 Jx' B2 Q2 Jy' Jw Z1 I0 e1 q1 lx' e2 q2 ly' lw z1 t0 _ _ _ _ _ _ _ _ _ _ _); auto.
  - subl.
  - covt Cv.
Qed.

(** Minor E3: r, mx, py against x, w, hi. *)
Lemma asm_E3 r x py w hi mx mn ux uz B0 B1 B2 Jx Jy Jw Jz I0 I1 K e0 e1 e2 lx ly lw lz t0 t1 t2 :
  con r B0 x e0 -> con x B1 py e1 -> con w B2 py e2 -> con x Jx ux lx -> con py Jy hi ly -> con w Jw r lw -> con w Jz uz lz ->
  con r I0 hi t0 -> con hi I1 mx t1 -> con0 mx K mn t2 -> ux = mx /\ uz = mn \/ ux = mn /\ uz = mx ->
  NoDup ((r :: I0 ++ hi :: I1 ++ K ++ [mn]) ++ (B0 ++ x :: B1 ++ py :: B2 ++ [w]) ++ Jx ++ Jy ++ Jw ++ Jz) ->
  covers (e0 ++ e1 ++ e2 ++ lx ++ ly ++ lw ++ lz ++ t0 ++ t1 ++ t2) -> bipartite_subdivision h A 3 3.
Proof.
  intros C1 C2 C3 C4 C5 C6 C7 C8 C9 C10 E Nd Cv. destruct (merge2 x w ux uz Jx Jz lx lz mx mn K t2 C4 C7 C10 E) as (Jx' & Jz' & lx' & lz' & D1 & D2 & P & I).
  pose proof (con_sym src dst ok st dt okt) as Sy.
  refine (k33_of src dst ok h A Hin Hnb r mx py x w hi B0 Jw I0 Jx' Jz' I1 B1 B2 Jy e0 lw t0 lx' lz' t1 e1 e2 ly _ _ _ _ _ _ _ _ _ _ _); auto.
  - subl.
  - covt Cv.
Qed.

(** Three legs, all ending at mx but at most one. *)
Lemma merge3m x y z ux uy uz Jx Jy Jz lx ly lz mx mn K t : con x Jx ux lx -> con y Jy uy ly -> con z Jz uz lz -> con0 mx K mn t ->
  (ux = mn /\ uy = mx /\ uz = mx) \/ (ux = mx /\ uy = mn /\ uz = mx) \/ (ux = mx /\ uy = mx /\ uz = mn) ->
  exists Jx' Jy' Jz' lx' ly' lz', con x Jx' mx lx' /\ con y Jy' mx ly' /\ con z Jz' mx lz' /\ Permutation (mx :: Jx' ++ Jy' ++ Jz') (Jx ++ Jy ++ Jz ++ K ++ [mn]) /\ incl (lx ++ ly ++ lz ++ t) (lx' ++ ly' ++ lz').
Proof.
  intros C1 C2 C3 C5 O. assert (C4 : con0 mx [] mx []) by (left; auto).
  destruct (merge3 x y z ux uy uz Jx Jy Jz lx ly lz mx mx mn [] K [] t C1 C2 C3 C4 C5) as (J1 & J2 & J3 & l1 & l2 & l3 & E1 & E2 & E3 & P & I); [unfold order3; tauto|].
  exists J1, J2, J3, l1, l2, l3. auto 10.
Qed.
Definition lower1 (a b c mx mn : Z) : Prop := (a = mn /\ b = mx /\ c = mx) \/ (a = mx /\ b = mn /\ c = mx) \/ (a = mx /\ b = mx /\ c = mn).

(** Minor E4: x, w, y against px, r, mx. *)
Lemma asm_E4 r x w y px mx mn ux uy uz A0 A1 A2 B1 A3 Jx Jy Jw Jz K e0 e1 e2 e3 e4 lx ly lw lz t2 :
  con r A0 x e0 -> con x A1 px e1 -> con px A2 w e2 -> con y B1 px e3 -> con y A3 r e4 -> con x Jx ux lx -> con y Jy uy ly -> con w Jz uz lz -> con w Jw r lw ->
  con0 mx K mn t2 -> lower1 ux uy uz mx mn ->
  NoDup ((r :: K ++ [mn]) ++ (A0 ++ x :: A1 ++ px :: A2 ++ w :: B1 ++ y :: A3) ++ Jx ++ Jy ++ Jw ++ Jz) ->
  covers (e0 ++ e1 ++ e2 ++ e3 ++ e4 ++ lx ++ ly ++ lw ++ lz ++ t2) -> bipartite_subdivision h A 3 3.
Proof.
  intros C1 C2 C3 C4 C5 C6 C7 C8 C9 C10 E Nd Cv. destruct (merge3m x y w ux uy uz Jx Jy Jz lx ly lz mx mn K t2 C6 C7 C8 C10 E) as (Jx' & Jy' & Jz' & lx' & ly' & lz' & D1 & D2 & D3 & P & I).
  pose proof (con_sym src dst ok st dt okt) as Sy.
  refine (k33_of src dst ok h A Hin Hnb x w y px r mx A1 A0 Jx' A2 Jw Jz' B1 A3 Jy' e1 e0 lx' e2 lw lz' e3 e4 ly' _ _ _ _ _ _ _ _ _ _ _); auto.
  - subl.
  - covt Cv.
Qed.

(** Minor E: K5 on r, x, y, w, mx. *)
Lemma asm_E r x w y mx mn ux uy uz A0 A1 A2 A3 Q Jx Jy Jw Jz I0 K e0 e1 e2 e3 q lx ly lw lz t0 t2 :
  con r A0 x e0 -> con x A1 w e1 -> con w A2 y e2 -> con y A3 r e3 -> con x Q y q -> con x Jx ux lx -> con y Jy uy ly -> con w Jz uz lz -> con w Jw r lw ->
  con r I0 mx t0 -> con0 mx K mn t2 -> lower1 ux uy uz mx mn ->
  NoDup ((r :: I0 ++ K ++ [mn]) ++ (A0 ++ x :: A1 ++ w :: A2 ++ y :: A3) ++ Q ++ Jx ++ Jy ++ Jw ++ Jz) ->
  covers (e0 ++ e1 ++ e2 ++ e3 ++ q ++ lx ++ ly ++ lw ++ lz ++ t0 ++ t2) -> complete_subdivision h A 5.
Proof.
  intros C1 C2 C3 C4 C5 C6 C7 C8 C9 C10 C11 E Nd Cv. destruct (merge3m x y w ux uy uz Jx Jy Jz lx ly lz mx mn K t2 C6 C7 C8 C11 E) as (Jx' & Jy' & Jz' & lx' & ly' & lz' & D1 & D2 & D3 & P & I).
  pose proof (con_sym src dst ok st dt okt) as Sy.
  refine (k5_of src dst ok h A Hin Hnb r x y w mx A0 A3 Jw I0 Q A1 Jx' A2 Jy' Jz' e0 e3 lw t0 q e1 lx' e2 ly' lz' _ _ _ _ _ _ _ _ _ _ _ _); auto.
  - subl.
  - covt Cv.
Qed.
End Asm.
