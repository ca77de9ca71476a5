(** * DrawIOP: proofs about the drawing section. *)
From Coq Require Import ZifyBool.
From Verif Require Import Base BaseP StrBufM StrBufP GraphRec GraphM GraphSpec GSimp LinkP GraphP GraphP2 GraphP3 GraphP4 GraphP5 ObsP3 DrawM DrawSpec DrawP IOM IOSpec IOP IOP2 DrawIOM DrawIOSpec.

Lemma digits_len : forall f n acc, (length (digits f n acc) <= f + length acc)%nat.
Proof.
  induction f as [|f IH]; intros n acc; cbn [digits]; [lia|]. destruct (n / 10 =? 0); cbn [length]; [lia|]. pose proof (IH (n / 10) ((48 + n mod 10) :: acc)) as K. cbn [length] in K. lia.
Qed.
Lemma dec_len n : 0 <= n -> (length (dec n) <= 10)%nat.
Proof. intros H. unfold dec. replace (n <? 0) with false by lia. pose proof (digits_len 10 n []). cbn [length] in *. lia. Qed.
Lemma line_len i d : 0 <= i -> rec_ok d -> (length (rec_line i d) <= 45)%nat.
Proof.
  intros Hi (H1 & H2 & H3). unfold rec_line. rewrite !app_length. cbn [length]. pose proof (dec_len i Hi).
  pose proof (dec_len (dpos d) ltac:(lia)). pose proof (dec_len (dstart d) ltac:(lia)). pose proof (dec_len (dend d) ltac:(lia)). lia.
Qed.

(** ** Writing *)
Definition starts (b : blk) (l : list Z) : Prop := forall i, (i < length l)%nat -> bdat b (Z.of_nat i) = nth i l 0.
Lemma put_ok b l x : starts b l -> Z.of_nat (length l + length x) < bsz b -> bsz b <= INT_MAX ->
  exists b', put x (b, Z.of_nat (length l)) = Ret (b', Z.of_nat (length (l ++ x))) /\ starts b' (l ++ x) /\ bsz b' = bsz b.
Proof.
  intros HS HL HB. unfold put. cbn [fst snd].
  destruct (strcpy_str_ok x b (Z.of_nat (length l)) ltac:(lia) ltac:(lia)) as (b' & E & Es & H1 & _ & H3).
  exists b'. rewrite E, bind_ret, iadd_ok by lia. rewrite bind_ret. split; [rewrite app_length; do 2 f_equal; lia|]. split; [|exact Es].
  intros i Hi. rewrite app_length in Hi. destruct (Nat.lt_ge_cases i (length l)) as [Lt|Ge].
  - rewrite app_nth1 by exact Lt. rewrite H3 by lia. apply HS. exact Lt.
  - rewrite app_nth2 by exact Ge. rewrite <- H1 by lia. f_equal. lia.
Qed.

Lemma starts_text b l : starts b l -> block_text b (Z.of_nat (length l)) = l.
Proof.
  intros H. unfold block_text, from. rewrite map_map, Nat2Z.id. apply nth_ext with (d := bdat b (0 + Z.of_nat 0)) (d' := 0).
  - rewrite map_length, seq_length. reflexivity.
  - intros i Hi. rewrite map_length, seq_length in Hi.
    rewrite (map_nth (fun x : nat => bdat b (0 + Z.of_nat x)) (seq 0 (length l)) 0%nat i), seq_nth by exact Hi. cbn [Nat.add].
    rewrite <- H by exact Hi. f_equal.
Qed.

Lemma concat_len {A} (f : A -> list Z) k l : (forall x, In x l -> (length (f x) <= k)%nat) -> (length (concat (map f l)) <= k * length l)%nat.
Proof.
  induction l as [|x l IH]; intros H; cbn [map concat length]; [lia|]. rewrite app_length.
  pose proof (H x (or_introl eq_refl)). pose proof (IH (fun y Hy => H y (or_intror Hy))). lia.
Qed.

(** Lines put one after the other by a loop. *)
Lemma puts_ok (f : Z -> list Z) (sel : Z -> bool) (body : Z -> blk * Z -> res (blk * Z)) :
  forall n i b l, (forall k s, i <= k < i + Z.of_nat n -> body k s = if sel k then put (f k) s else Ret s) ->
  starts b l -> Z.of_nat (length l + length (concat (map f (filter sel (zrange i n))))) < bsz b -> bsz b <= INT_MAX ->
  exists b', for_up n i body (b, Z.of_nat (length l)) = Ret (b', Z.of_nat (length (l ++ concat (map f (filter sel (zrange i n)))))) /\
    starts b' (l ++ concat (map f (filter sel (zrange i n)))) /\ bsz b' = bsz b.
Proof.
  induction n as [|n IH]; intros i b l HB HS HL HM; cbn [for_up].
  - exists b. cbn. rewrite app_nil_r. auto.
  - rewrite zrange_S in *. cbn [filter] in *. rewrite (HB i) by lia. destruct (sel i).
    + cbn [map concat] in *. rewrite app_length in HL.
      destruct (put_ok b l (f i) HS ltac:(lia) HM) as (b1 & E1 & S1 & Z1). rewrite E1, bind_ret.
      destruct (IH (i + 1) b1 (l ++ f i)) as (b2 & E2 & S2 & Z2).
      * intros k s Hk. apply HB. lia.
      * exact S1.
      * rewrite app_length. lia.
      * lia.
      * rewrite <- app_assoc in *. exists b2. rewrite Z2. auto.
    + rewrite bind_ret. apply IH; auto. intros k s Hk. apply HB. lia.
Qed.

Definition usedb (g : graph) (e : Z) : bool := negb (enbr g e =? NIL).

Lemma used_count g adj : rep g adj -> Z.of_nat (length (filter (usedb g) (zrange 2 (Z.to_nat (gp_EdgeInUseIndexBound g - 2))))) <= 2 * gM g.
Proof.
  intros R. pose proof (rep_storage _ _ R) as S. pose proof (st_M _ _ S) as HM.
  set (U := filter _ _). set (H := flat_map (fun h => [2 * (h / 2); 2 * (h / 2) + 1]) (gholes g)).
  assert (HR : forall h, In h (gholes g) -> forall x, In x [2 * (h / 2); 2 * (h / 2) + 1] -> 2 <= x < gp_EdgeInUseIndexBound g /\ enbr g x = NIL).
  { intros h Hh x Hx. destruct (st_holes _ _ S h Hh) as (H1 & H2 & H3). unfold twin in H3. rewrite lxor_1 in H3 by lia.
    assert (EV : gp_EdgeInUseIndexBound g = 2 * (1 + gM g + Z.of_nat (length (gholes g)))) by (unfold gp_EdgeInUseIndexBound; lia).
    destruct (even_cases h) as [[E M]|[E M]]; rewrite E in H3; cbn [In] in Hx;
      (assert (Q : 2 * (h / 2) = h \/ 2 * (h / 2) = h - 1) by (Z.div_mod_to_equations; lia));
      destruct Hx as [<-|[<-|[]]]; (split; [Z.div_mod_to_equations; lia|]);
      [rewrite <- H2|rewrite <- H3|rewrite <- H3|rewrite <- H2]; f_equal; Z.div_mod_to_equations; lia. }
  assert (LH : length H = (2 * length (gholes g))%nat).
  { unfold H. clear. induction (gholes g) as [|h l IH]; [reflexivity|]. cbn [flat_map app length]. rewrite IH. lia. }
  assert (NH : NoDup H).
  { unfold H. pose proof (st_holes_nodup _ _ S) as ND. clear - ND. induction (gholes g) as [|h l IH]; [constructor|]. cbn [map] in ND.
    inversion ND as [|a b N1 N2]; subst a b. cbn [flat_map app].
    assert (K : forall x, In x (flat_map (fun h => [2 * (h / 2); 2 * (h / 2) + 1]) l) -> x / 2 <> h / 2).
    { intros x Hx E. apply in_flat_map in Hx. destruct Hx as (h' & Hh & Hx). apply N1. apply in_map_iff. exists h'. split; [|exact Hh].
      destruct Hx as [<-|[<-|[]]]; Z.div_mod_to_equations; lia. }
    constructor; [|constructor; [|apply IH; exact N2]].
    - intros [E|Hx]; [lia|]. apply (K _ Hx). Z.div_mod_to_equations; lia.
    - intros Hx. apply (K _ Hx). Z.div_mod_to_equations; lia. }
  assert (KK : (length (U ++ H) <= length (zrange 2 (Z.to_nat (gp_EdgeInUseIndexBound g - 2))))%nat).
  { apply NoDup_incl_length.
    - assert (NU : NoDup U) by (apply NoDup_filter, NoDup_zrange).
      assert (DJ : forall x, In x U -> ~ In x H).
      { intros x Hx Hh. unfold U in Hx. apply filter_In in Hx. destruct Hx as [_ Hx]. unfold usedb in Hx.
        apply in_flat_map in Hh. destruct Hh as (h & Hh & Hy). destruct (HR h Hh x Hy) as [_ Q]. rewrite Q in Hx. discriminate. }
      clear - NU NH DJ. induction U as [|x l IH]; [exact NH|]. inversion NU as [|a b N1 N2]; subst a b. cbn [app]. constructor.
      + rewrite in_app_iff. intros [Q|Q]; [auto|]. exact (DJ x (or_introl eq_refl) Q).
      + apply IH; [exact N2|]. intros y Hy. apply DJ. right. exact Hy.
    - intros x Hx. apply in_app_iff in Hx. destruct Hx as [Hx|Hx].
      + unfold U in Hx. apply filter_In in Hx. tauto.
      + apply in_flat_map in Hx. destruct Hx as (h & Hh & Hy). destruct (HR h Hh x Hy) as [Q _]. apply in_zrange. lia. }
  rewrite app_length, LH, zrange_length in KK. unfold gp_EdgeInUseIndexBound in KK. unfold U in *. lia.
Qed.

Definition the_text (c : dctx) : list Z :=
  section_text (gN (dG c)) (gp_EdgeInUseIndexBound (dG c)) (usedb (dG c)) (negb (Z.land (giflags (dG c)) 8 =? 0)) (dV c) (dE c).

Lemma write_section_ok junk c adj : rep (dG c) adj -> gCap (dG c) <= INT_MAX - 2 ->
  (forall v, 1 <= v <= gN (dG c) -> rec_ok (dV c v)) -> (forall e, 2 <= e < gp_EdgeInUseIndexBound (dG c) -> rec_ok (dE c e)) ->
  64 * (gN (dG c) + 2 * gM (dG c) + 2) <= INT_MAX ->
  exists b, _DrawPlanar_WritePostprocess junk c = Ret (Some (b, Z.of_nat (length (the_text c))), C_OK) /\
    block_text b (Z.of_nat (length (the_text c))) = the_text c.
Proof.
  intros R HC HV HE HI. pose proof (rep_storage _ _ R) as St. pose proof (st_N _ _ St) as HN. pose proof (st_M _ _ St) as HM.
  set (g := dG c) in *. unfold _DrawPlanar_WritePostprocess. fold g. rewrite iadd_ok by lia. rewrite bind_ret.
  rewrite iadd_ok by lia. rewrite bind_ret. rewrite imul_ok by lia. rewrite bind_ret.
  replace (2000000000 <? gN g) with false by (unfold INT_MAX in HI; lia).
  set (zb := negb _). set (B := (gN g + 1 + 2 * gM g + 1) * 64).
  set (fv := fun v => rec_line (v - (if zb then 1 else 0)) (dV c v)). set (fe := fun e => rec_line (e - (if zb then 2 else 0)) (dE c e)).
  assert (LV : (length (concat (map fv (filter (fun _ => true) (zrange 1 (Z.to_nat (gN g)))))) <= 45 * Z.to_nat (gN g))%nat).
  { rewrite <- (zrange_length 1 (Z.to_nat (gN g))) at 2. replace (filter (fun _ => true) (zrange 1 (Z.to_nat (gN g)))) with (zrange 1 (Z.to_nat (gN g))).
    - apply concat_len. intros v Hv. apply in_zrange in Hv. apply line_len; [destruct zb; lia|apply HV; lia].
    - generalize (zrange 1 (Z.to_nat (gN g))). intros l. induction l as [|x l IH]; [reflexivity|]. cbn [filter]. rewrite <- IH. reflexivity. }
  assert (LE : (Z.of_nat (length (concat (map fe (filter (usedb g) (zrange 2 (Z.to_nat (gp_EdgeInUseIndexBound g - 2))))))) <= 45 * (2 * gM g))).
  { pose proof (used_count g adj R) as UC. set (l := filter (usedb g) _) in *.
    assert (length (concat (map fe l)) <= 45 * length l)%nat; [|lia]. apply concat_len. intros e He. unfold l in He. apply filter_In in He.
    destruct He as [He _]. apply in_zrange in He. apply line_len; [destruct zb; lia|apply HE; lia]. }
  destruct (put_ok (mkBlk B junk) [] (draw_tag ++ [10])) as (b1 & E1 & S1 & Z1).
  { intros i Hi. cbn in Hi. lia. }
  { cbn. lia. }
  { cbn [bsz]. unfold B. lia. }
  change (Z.of_nat (length (@nil Z))) with 0 in E1. rewrite E1, bind_ret. cbn [bsz] in Z1. cbn [app] in E1, S1 |- *.
  destruct (puts_ok fv (fun _ => true) (fun v s => d <- rd_dV c v ;; put (draw_line (v - (if zb then 1 else 0)) d) s) (Z.to_nat (gN g)) 1 b1 (draw_tag ++ [10])) as (b2 & E2 & S2 & Z2).
  { intros k s Hk. unfold rd_dV. rewrite guard_true by (unfold inVI, gp_PrimaryVertexIndexBound; fold g; lia). rewrite bind_ret. reflexivity. }
  { exact S1. }
  { rewrite Z1. unfold B. change (length (draw_tag ++ [10])) with 13%nat. lia. }
  { rewrite Z1. unfold B. lia. }
  rewrite E2, bind_ret.
  destruct (puts_ok fe (usedb g) (fun e s => w <- gp_GetNeighbor g e ;;
           if negb (w =? NIL) then d <- rd_dE c e ;; put (draw_line (e - (if zb then 2 else 0)) d) s else Ret s) (Z.to_nat (gp_EdgeInUseIndexBound g - 2)) 2 b2 ((draw_tag ++ [10]) ++ concat (map fv (filter (fun _ => true) (zrange 1 (Z.to_nat (gN g))))))) as (b3 & E3 & S3 & Z3); [|exact S2|..].
  { intros k s Hk. pose proof (st_cap _ _ St) as HB. unfold gp_GetNeighbor. rewrite guard_true by (apply inE_true; unfold gp_EdgeInUseIndexBound in *; lia). rewrite bind_ret.
    unfold usedb. destruct (enbr g k =? NIL); cbn [negb]; [reflexivity|]. unfold rd_dE. rewrite guard_true by (apply inE_true; fold g; unfold gp_EdgeInUseIndexBound in *; lia). rewrite bind_ret. reflexivity. }
  { rewrite Z2, Z1, app_length. unfold B. change (length (draw_tag ++ [10])) with 13%nat. lia. }
  { rewrite Z2, Z1. unfold B. lia. }
  rewrite E3, bind_ret.
  match type of S3 with starts _ ?l => destruct (put_ok b3 l (draw_end ++ [10]) S3) as (b4 & E4 & S4 & Z4) end.
  { rewrite Z3, Z2, Z1, !(app_length (_ ++ _) (concat _)). unfold B. change (length (draw_tag ++ [10])) with 13%nat. change (length (draw_end ++ [10])) with 14%nat. lia. }
  { rewrite Z3, Z2, Z1. unfold B. lia. }
  rewrite E4, bind_ret.
  assert (ET : (((draw_tag ++ [10]) ++ concat (map fv (filter (fun _ => true) (zrange 1 (Z.to_nat (gN g)))))) ++
     concat (map fe (filter (usedb g) (zrange 2 (Z.to_nat (gp_EdgeInUseIndexBound g - 2)))))) ++ draw_end ++ [10] = the_text c).
  { unfold the_text, section_text. fold g. fold zb. rewrite <- !app_assoc. cbn [app draw_tag draw_name name_codes].
    do 13 f_equal. replace (filter (fun _ => true) (zrange 1 (Z.to_nat (gN g)))) with (zrange 1 (Z.to_nat (gN g))); [reflexivity|].
    generalize (zrange 1 (Z.to_nat (gN g))). intros l. induction l as [|x l IH]; [reflexivity|]. cbn [filter]. rewrite <- IH. reflexivity. }
  rewrite <- ET. exists b4. split; [reflexivity|]. apply starts_text. exact S4.
Qed.

(** ** Reading *)
Lemma scan_line_rec i d d0 rest : 0 <= i <= INT_MAX -> rec_ok d -> scan_drec (rec_line i d ++ rest) d0 = Ret d.
Proof.
  intros Hi (H1 & H2 & H3). unfold scan_drec, rec_line. rewrite <- !app_assoc.
  rewrite scan_int_nat; [|exact Hi|reflexivity]. rewrite bind_ret. cbv beta iota. cbn [app].
  unfold scan_int at 1. rewrite scan_d_space. rewrite scan_d_nat; [|exact H1|reflexivity|cbn [length]; rewrite !app_length; lia].
  rewrite bind_ret. cbv beta iota.
  unfold scan_int at 1. rewrite scan_d_space. rewrite scan_d_nat; [|exact H2|reflexivity|cbn [length]; rewrite !app_length; lia].
  rewrite bind_ret. cbv beta iota.
  unfold scan_int at 1. rewrite scan_d_space. rewrite scan_d_nat; [|exact H3|reflexivity|cbn [length]; rewrite !app_length; lia].
  rewrite bind_ret. cbv beta iota. destruct d; reflexivity.
Qed.

Lemma next_line_app l rest : ~ In 10 l -> next_line (l ++ 10 :: rest) = Ret rest.
Proof.
  induction l as [|x l IH]; intros H; cbn [app next_line]; [reflexivity|]. replace (x =? 10) with false by (cbn [In] in H; lia).
  apply IH. intros Q. apply H. right. exact Q.
Qed.

Lemma dec_no_lf n : 0 <= n <= INT_MAX -> ~ In 10 (dec n).
Proof. intros Hn H. destruct (dec_val n Hn) as (ds & E & _ & AD & _). rewrite E in H. apply AD in H. discriminate. Qed.

Lemma next_rec_line i d rest : 0 <= i <= INT_MAX -> rec_ok d -> next_line (rec_line i d ++ rest) = Ret rest.
Proof.
  intros Hi (H1 & H2 & H3). unfold rec_line.
  replace ((dec i ++ [58; 32] ++ dec (dpos d) ++ [32] ++ dec (dstart d) ++ [32] ++ dec (dend d) ++ [10]) ++ rest)
    with ((dec i ++ [58; 32] ++ dec (dpos d) ++ [32] ++ dec (dstart d) ++ [32] ++ dec (dend d)) ++ 10 :: rest) by (rewrite <- !app_assoc; reflexivity).
  apply next_line_app. rewrite !in_app_iff. cbn [In].
  pose proof (dec_no_lf i Hi). pose proof (dec_no_lf _ H1). pose proof (dec_no_lf _ H2). pose proof (dec_no_lf _ H3). intuition lia.
Qed.

(** Anything may precede the section, as long as the tag is not in it. *)
Lemma find_section pre rest : ~ In 60 pre -> find_tag (pre ++ draw_tag ++ rest) = Some (draw_tag ++ rest).
Proof.
  induction pre as [|x pre IH]; intros H; [reflexivity|]. cbn [app find_tag].
  replace (starts_with draw_tag (x :: pre ++ draw_tag ++ rest)) with false.
  - apply IH. intros Q. apply H. right. exact Q.
  - unfold draw_tag at 1. cbn [app starts_with]. replace (60 =? x) with false by (cbn [In] in H; lia). reflexivity.
Qed.

Lemma read_vertices voff V : voff = 0 \/ voff = 1 -> forall n i c rest, 1 <= i -> i + Z.of_nat n = gN (dG c) + 1 -> gN (dG c) <= INT_MAX ->
  (forall v, i <= v <= gN (dG c) -> rec_ok (V v)) ->
  exists c', for_up n i (fun v '(c, s) => d <- rd_dV c v ;; d <- scan_drec s d ;; c <- wr_dV c v d ;; s <- next_line s ;; Ret (c, s))
     (c, concat (map (fun v => rec_line (v - voff) (V v)) (zrange i n)) ++ rest) = Ret (c', rest) /\
     dG c' = dG c /\ dE c' = dE c /\ (forall v, i <= v <= gN (dG c) -> dV c' v = V v) /\ (forall v, v < i \/ gN (dG c) < v -> dV c' v = dV c v).
Proof.
  intros Ho. induction n as [|n IH]; intros i c rest Hi Hn HN HV; cbn [for_up].
  - exists c. split; [reflexivity|]. do 2 (split; [reflexivity|]). split; [intros; lia|auto].
  - rewrite zrange_S. cbn [map concat]. rewrite <- app_assoc.
    unfold rd_dV. rewrite guard_true by (unfold inVI, gp_PrimaryVertexIndexBound; lia). rewrite bind_ret.
    rewrite scan_line_rec by (try (apply HV; lia); destruct Ho as [->| ->]; lia). rewrite bind_ret.
    unfold wr_dV. rewrite guard_true by (unfold inVI, gp_PrimaryVertexIndexBound; lia). rewrite bind_ret.
    rewrite next_rec_line by (try (apply HV; lia); destruct Ho as [->| ->]; lia). rewrite !bind_ret.
    destruct (IH (i + 1) (mkC (dG c) (upd (dV c) i (V i)) (dE c)) rest ltac:(lia)) as (c' & E & G & D & H1 & H2); cbn [dG dE dV] in *; auto; try lia.
    { intros v Hv. apply HV. lia. }
    exists c'. split; [exact E|]. split; [exact G|]. split; [exact D|]. split.
    + intros v Hv. destruct (Z.eq_dec v i) as [->|]; [|apply H1; lia]. rewrite H2 by lia. apply upd_same.
    + intros v Hv. rewrite H2 by lia. apply upd_other. lia.
Qed.

Lemma read_edges eoff E : eoff = 0 \/ eoff = 2 -> forall n i c rest, 2 <= i -> i + Z.of_nat n <= gp_EdgeIndexBound (dG c) -> gp_EdgeIndexBound (dG c) <= INT_MAX ->
  (forall e, i <= e < i + Z.of_nat n -> rec_ok (E e)) ->
  exists c', for_up n i (fun e '(c, s) => d <- rd_dE c e ;; d <- scan_drec s d ;; c <- wr_dE c e d ;; s <- next_line s ;; Ret (c, s))
     (c, concat (map (fun e => rec_line (e - eoff) (E e)) (zrange i n)) ++ rest) = Ret (c', rest) /\
     dG c' = dG c /\ dV c' = dV c /\ (forall e, i <= e < i + Z.of_nat n -> dE c' e = E e) /\ (forall e, e < i \/ i + Z.of_nat n <= e -> dE c' e = dE c e).
Proof.
  intros Ho. induction n as [|n IH]; intros i c rest Hi Hn HN HE; cbn [for_up].
  - exists c. split; [reflexivity|]. do 2 (split; [reflexivity|]). split; [intros; lia|auto].
  - rewrite zrange_S. cbn [map concat]. rewrite <- app_assoc.
    unfold rd_dE. rewrite guard_true by (apply inE_true; lia). rewrite bind_ret.
    rewrite scan_line_rec by (try (apply HE; lia); destruct Ho as [->| ->]; lia). rewrite bind_ret.
    unfold wr_dE. rewrite guard_true by (apply inE_true; lia). rewrite bind_ret.
    rewrite next_rec_line by (try (apply HE; lia); destruct Ho as [->| ->]; lia). rewrite !bind_ret.
    destruct (IH (i + 1) (mkC (dG c) (dV c) (upd (dE c) i (E i))) rest ltac:(lia)) as (c' & Q & G & D & H1 & H2); cbn [dG dE dV] in *; auto; try lia.
    { intros e He. apply HE. lia. }
    exists c'. split; [exact Q|]. split; [exact G|]. split; [exact D|]. split.
    + intros e He. destruct (Z.eq_dec e i) as [->|]; [|apply H1; lia]. rewrite H2 by lia. apply upd_same.
    + intros e He. rewrite H2 by lia. apply upd_other. lia.
Qed.

Lemma read_section_ok c n m used zb V E pre post : n = gN (dG c) -> m = gp_EdgeInUseIndexBound (dG c) ->
  1 <= n <= INT_MAX -> 2 <= m <= gp_EdgeIndexBound (dG c) -> gp_EdgeIndexBound (dG c) <= INT_MAX ->
  (forall e, 2 <= e < m -> used e = true) ->
  (forall v, 1 <= v <= n -> rec_ok (V v)) -> (forall e, 2 <= e < m -> rec_ok (E e)) -> ~ In 60 pre ->
  exists c', _DrawPlanar_ReadPostprocess c (Some (pre ++ section_text n m used zb V E ++ post)) = Ret (c', C_OK) /\
    dG c' = dG c /\ (forall v, 1 <= v <= n -> dV c' v = V v) /\ (forall e, 2 <= e < m -> dE c' e = E e).
Proof.
  intros En Em Hn Hm HI HU HV HE HP.
  assert (FU : filter used (from 2 (m - 2)) = zrange 2 (Z.to_nat (m - 2))).
  { change (from 2 (m - 2)) with (zrange 2 (Z.to_nat (m - 2))). rewrite <- (app_nil_r (zrange _ _)) at 2.
    assert (K : forall l, (forall e, In e l -> used e = true) -> filter used l = l ++ []).
    { induction l as [|x l IH]; intros H; [reflexivity|]. cbn [filter app]. rewrite (H x (or_introl eq_refl)). f_equal. apply IH. intros e He. apply H. right. exact He. }
    apply K. intros e He. apply HU. apply in_zrange in He. lia. }
  unfold section_text. rewrite FU. change (from 1 n) with (zrange 1 (Z.to_nat n)).
  set (tv := concat (map _ (zrange 1 _))). set (te := concat (map _ (zrange 2 _))).
  assert (ET : pre ++ ([60] ++ name_codes ++ [62; 10] ++ tv ++ te ++ [60; 47] ++ name_codes ++ [62; 10]) ++ post
     = pre ++ draw_tag ++ 10 :: tv ++ te ++ ([60; 47] ++ name_codes ++ [62; 10] ++ post)).
  { f_equal. unfold draw_tag. rewrite <- !app_assoc. reflexivity. }
  rewrite ET. unfold _DrawPlanar_ReadPostprocess. set (data := pre ++ _).
  assert (EF : find_tag data = Some (draw_tag ++ 10 :: tv ++ te ++ ([60; 47] ++ name_codes ++ [62; 10] ++ post))) by (apply find_section; exact HP).
  assert (EM : match data with [] => Ret (c, C_OK) | _ :: _ => match find_tag data with
      | None => Ret (c, C_NOTOK) | Some s => match skipn (length draw_tag) s with [] => UB
        | _ :: s => '(c, s) <- for_up (Z.to_nat (gN (dG c))) 1 (fun v '(c, s) => d <- rd_dV c v ;; d <- scan_drec s d ;; c <- wr_dV c v d ;; s <- next_line s ;; Ret (c, s)) (c, s) ;;
              '(c, s) <- for_up (Z.to_nat (gp_EdgeInUseIndexBound (dG c) - 2)) 2 (fun e '(c, s) => d <- rd_dE c e ;; d <- scan_drec s d ;; c <- wr_dE c e d ;; s <- next_line s ;; Ret (c, s)) (c, s) ;;
              Ret (c, C_OK) end end end =
     ('(c, s) <- for_up (Z.to_nat (gN (dG c))) 1 (fun v '(c, s) => d <- rd_dV c v ;; d <- scan_drec s d ;; c <- wr_dV c v d ;; s <- next_line s ;; Ret (c, s)) (c, tv ++ te ++ ([60; 47] ++ name_codes ++ [62; 10] ++ post)) ;;
              '(c, s) <- for_up (Z.to_nat (gp_EdgeInUseIndexBound (dG c) - 2)) 2 (fun e '(c, s) => d <- rd_dE c e ;; d <- scan_drec s d ;; c <- wr_dE c e d ;; s <- next_line s ;; Ret (c, s)) (c, s) ;;
              Ret (c, C_OK))).
  { rewrite EF. destruct data as [|x data']; [discriminate|]. reflexivity. }
  rewrite EM. clear EM.
  destruct (read_vertices (if zb then 1 else 0) V ltac:(destruct zb; auto) (Z.to_nat n) 1 c (te ++ ([60; 47] ++ name_codes ++ [62; 10] ++ post)))
    as (c1 & E1 & G1 & D1 & V1 & _); try lia.
  { intros v Hv. apply HV. lia. }
  rewrite <- En. unfold tv. rewrite E1, bind_ret. cbv beta iota. rewrite G1, <- Em.
  destruct (read_edges (if zb then 2 else 0) E ltac:(destruct zb; auto) (Z.to_nat (m - 2)) 2 c1 ([60; 47] ++ name_codes ++ [62; 10] ++ post))
    as (c2 & E2 & G2 & D2 & W2 & _); rewrite ?G1; try lia.
  { intros e He. apply HE. lia. }
  unfold te. rewrite E2, bind_ret. cbv beta iota. exists c2. split; [reflexivity|]. split; [congruence|]. split.
  - intros v Hv. rewrite D2. apply V1. lia.
  - intros e He. apply W2. lia.
Qed.
