(** * ListP: proofs about the list collection. *)
From Verif Require Import Base BaseP ListM ListSpec.

Lemma joined_cons2 c a b t :
  joined c (a :: b :: t) <-> lcnext c a = b /\ lcprev c b = a /\ joined c (b :: t).
Proof. reflexivity. Qed.

Lemma joined_app c l1 a l2 :
  joined c (l1 ++ a :: l2) <-> joined c (l1 ++ [a]) /\ joined c (a :: l2).
Proof.
  induction l1 as [|b l1 IH]; [simpl; tauto|].
  destruct l1 as [|d l1].
  - change ([b] ++ a :: l2) with (b :: a :: l2). change ([b] ++ [a]) with [b; a].
    rewrite !joined_cons2. simpl (joined c [a]). tauto.
  - change ((b :: d :: l1) ++ a :: l2) with (b :: d :: (l1 ++ a :: l2)).
    change ((b :: d :: l1) ++ [a]) with (b :: d :: (l1 ++ [a])).
    rewrite !joined_cons2. change (d :: l1 ++ a :: l2) with ((d :: l1) ++ a :: l2).
    change (d :: l1 ++ [a]) with ((d :: l1) ++ [a]). rewrite IH. tauto.
Qed.

Lemma circular_app c h t p m :
  h :: t = m ++ [p] ->
  circular c (h :: t) <-> joined c (h :: t) /\ lcnext c p = h /\ lcprev c h = p.
Proof.
  intros E. unfold circular. rewrite E, <- app_assoc. simpl (([p] ++ [h])%list).
  rewrite joined_app. rewrite joined_cons2. simpl (joined c [h]). tauto.
Qed.

Lemma circular_rot c l1 l2 : circular c (l1 ++ l2) -> circular c (l2 ++ l1).
Proof.
  destruct l1 as [|a l1]; [now rewrite app_nil_r|].
  destruct l2 as [|b l2]; [now rewrite app_nil_r|].
  unfold circular; cbn [app]. intros H.
  change (joined c (((a :: l1) ++ b :: l2) ++ [a])) in H.
  change (joined c (((b :: l2) ++ a :: l1) ++ [b])).
  rewrite <- app_assoc in H. cbn [app] in H.
  change (joined c ((a :: l1) ++ b :: (l2 ++ [a]))) in H.
  rewrite joined_app in H. destruct H as [H1 H2].
  rewrite <- app_assoc. cbn [app].
  change (joined c ((b :: l2) ++ a :: (l1 ++ [b]))).
  rewrite joined_app. split; [exact H2|exact H1].
Qed.

Lemma circular_rot_iff c l1 l2 : circular c (l1 ++ l2) <-> circular c (l2 ++ l1).
Proof. split; apply circular_rot. Qed.

Lemma joined_frame c c' l :
  joined c l ->
  (forall m y, l = m ++ [y] -> forall z, In z m -> lcnext c' z = lcnext c z) ->
  (forall h m, l = h :: m -> forall z, In z m -> lcprev c' z = lcprev c z) ->
  joined c' l.
Proof.
  induction l as [|a l IH]; [auto|]. destruct l as [|b l]; [auto|].
  intros H Hn Hp. rewrite joined_cons2 in *. destruct H as (H1 & H2 & H3).
  split; [|split].
  - destruct (exists_last (l := b :: l)) as (m & y & E); [discriminate|].
    rewrite <- H1. apply (Hn (a :: m) y); [rewrite E; reflexivity|now left].
  - rewrite <- H2. apply (Hp a (b :: l)); [reflexivity|now left].
  - apply IH; [exact H3| |].
    + intros m y E z Hz. apply (Hn (a :: m) y); [rewrite E; reflexivity|now right].
    + intros h m E z Hz. apply (Hp a (b :: l)); [reflexivity|]. rewrite E. now right.
Qed.

Lemma circular_frame c c' l :
  circular c l ->
  (forall z, In z l -> lcnext c' z = lcnext c z /\ lcprev c' z = lcprev c z) ->
  circular c' l.
Proof.
  destruct l as [|h t]; [auto|]. intros H Hf.
  destruct (exists_last (l := h :: t)) as (m & p & E); [discriminate|].
  rewrite (circular_app _ _ _ _ _ E) in H. rewrite (circular_app _ _ _ _ _ E).
  destruct H as (H1 & H2 & H3).
  assert (Hp : In p (h :: t)) by (rewrite E; apply in_or_app; right; now left).
  split; [|split].
  - apply (joined_frame c); [exact H1| |].
    + intros m' y E' z Hz. apply Hf. rewrite E'. apply in_or_app; now left.
    + intros h' m' E' z Hz. apply Hf. rewrite E'. now right.
  - destruct (Hf p Hp) as [-> _]; auto.
  - destruct (Hf h (or_introl eq_refl)) as [_ ->]; auto.
Qed.

(** New node [x] between the last node [p] and the head [h]. *)
Lemma circular_insert c c' h t m p x :
  h :: t = m ++ [p] -> circular c (h :: t) -> NoDup (h :: t) -> ~ In x (h :: t) ->
  lcnext c' p = x -> lcnext c' x = h -> lcprev c' x = p -> lcprev c' h = x ->
  (forall z, z <> p -> z <> x -> lcnext c' z = lcnext c z) ->
  (forall z, z <> h -> z <> x -> lcprev c' z = lcprev c z) ->
  circular c' ((h :: t) ++ [x]).
Proof.
  intros E H Hnd Hx P1 P2 P3 P4 Fn Fp.
  rewrite (circular_app _ _ _ _ _ E) in H. destruct H as (H1 & H2 & H3).
  change ((h :: t) ++ [x]) with (h :: (t ++ [x])).
  assert (E' : h :: (t ++ [x]) = (h :: t) ++ [x]) by reflexivity.
  rewrite (circular_app _ _ _ _ _ E'). rewrite E', E, <- app_assoc. cbn [app].
  split; [|split; [exact P2|exact P4]].
  rewrite joined_app. split.
  - rewrite <- E. apply (joined_frame c); [exact H1| |].
    + intros m' y Em z Hz. rewrite E in Em.
      apply app_inj_tail in Em as [-> ->].
      apply Fn.
      * intros ->. rewrite E in Hnd. eapply NoDup_app_disj; [exact Hnd|exact Hz|now left].
      * intros ->. apply Hx. rewrite E. apply in_or_app; now left.
    + intros h' m' Em z Hz. injection Em as <- <-. apply Fp.
      * intros ->. apply NoDup_cons_iff in Hnd. tauto.
      * intros ->. apply Hx. now right.
  - rewrite joined_cons2. simpl (joined c' [x]). auto.
Qed.

(** Removing the head [x] of a list of at least two nodes. *)
Lemma circular_remove c c' x h t m p :
  h :: t = m ++ [p] -> circular c (x :: h :: t) -> NoDup (x :: h :: t) ->
  lcnext c' p = h -> lcprev c' h = p ->
  (forall z, z <> p -> z <> x -> lcnext c' z = lcnext c z) ->
  (forall z, z <> h -> z <> x -> lcprev c' z = lcprev c z) ->
  circular c' (h :: t).
Proof.
  intros E H Hnd P1 P2 Fn Fp.
  assert (E2 : x :: h :: t = (x :: m) ++ [p]) by (rewrite E; reflexivity).
  rewrite (circular_app _ _ _ _ _ E2) in H. destruct H as (H1 & H2 & H3).
  rewrite joined_cons2 in H1. destruct H1 as (H4 & H5 & H6).
  rewrite (circular_app _ _ _ _ _ E). split; [|split; [exact P1|exact P2]].
  apply NoDup_cons_iff in Hnd. destruct Hnd as [Hx Hnd].
  apply (joined_frame c); [exact H6| |].
  - intros m' y Em z Hz. rewrite E in Em. apply app_inj_tail in Em as [-> ->].
    apply Fn.
    + intros ->. rewrite E in Hnd. eapply NoDup_app_disj; [exact Hnd|exact Hz|now left].
    + intros ->. apply Hx. rewrite E. apply in_or_app; now left.
  - intros h' m' Em z Hz. injection Em as <- <-. apply Fp.
    + intros ->. apply NoDup_cons_iff in Hnd. tauto.
    + intros ->. apply Hx. now right.
Qed.

Lemma lc_inb_true c i : 0 <= i < lcN c -> lc_inb c i = true.
Proof. intros H. unfold lc_inb. apply andb_true_intro. rewrite Z.leb_le, Z.ltb_lt. lia. Qed.

Lemma rd_next_ok c i : 0 <= i < lcN c -> rd_next c i = Ret (lcnext c i).
Proof. intros H. unfold rd_next. now rewrite lc_inb_true. Qed.
Lemma rd_prev_ok c i : 0 <= i < lcN c -> rd_prev c i = Ret (lcprev c i).
Proof. intros H. unfold rd_prev. now rewrite lc_inb_true. Qed.
Lemma wr_next_ok c i v : 0 <= i < lcN c ->
  wr_next c i v = Ret (mkLC (lcN c) (upd (lcnext c) i v) (lcprev c)).
Proof. intros H. unfold wr_next. now rewrite lc_inb_true. Qed.
Lemma wr_prev_ok c i v : 0 <= i < lcN c ->
  wr_prev c i v = Ret (mkLC (lcN c) (lcnext c) (upd (lcprev c) i v)).
Proof. intros H. unfold wr_prev. now rewrite lc_inb_true. Qed.

Ltac lcrun := repeat first
  [ rewrite rd_next_ok by (cbn [lcN]; lia)
  | rewrite rd_prev_ok by (cbn [lcN]; lia)
  | rewrite wr_next_ok by (cbn [lcN]; lia)
  | rewrite wr_prev_ok by (cbn [lcN]; lia)
  | progress cbn [bind lcN lcnext lcprev] ].

Ltac updc := unfold upd in *;
  repeat match goal with
  | |- context [?a =? ?b] => destruct (Z.eqb_spec a b)
  | H : context [?a =? ?b] |- _ => destruct (Z.eqb_spec a b)
  end; subst; try congruence; try lia; auto.

(** What an insertion in the gap before [h] leaves behind. *)
Definition inserted (c c' : lcoll) (p h x : Z) : Prop :=
  lcN c' = lcN c /\
  lcnext c' p = x /\ lcnext c' x = h /\ lcprev c' x = p /\ lcprev c' h = x /\
  (forall z, z <> p -> z <> x -> lcnext c' z = lcnext c z) /\
  (forall z, z <> h -> z <> x -> lcprev c' z = lcprev c z).

Definition singleton_made (c c' : lcoll) (x : Z) : Prop :=
  lcN c' = lcN c /\ lcnext c' x = x /\ lcprev c' x = x /\
  (forall z, z <> x -> lcnext c' z = lcnext c z /\ lcprev c' z = lcprev c z).

Lemma append_single c x :
  0 < x < lcN c -> exists c', LCAppend c NIL x = Ret (x, c') /\ singleton_made c c' x.
Proof.
  intros Hx. unfold LCAppend. rewrite Z.eqb_refl. lcrun. eexists. split; [reflexivity|].
  unfold singleton_made; cbn [lcN lcnext lcprev]. rewrite !upd_same.
  split; [auto|split; [auto|split; [auto|]]]. intros z Hz. now rewrite !upd_other.
Qed.

Lemma append_gap c h x :
  0 < x < lcN c -> 0 < h < lcN c -> 0 < lcprev c h < lcN c -> x <> h -> x <> lcprev c h ->
  exists c', LCAppend c h x = Ret (h, c') /\ inserted c c' (lcprev c h) h x.
Proof.
  intros Hx Hh Hp N1 N2. unfold LCAppend. destruct (Z.eqb_spec h NIL) as [E|_]; [unfold NIL in E; lia|].
  lcrun. eexists. split; [reflexivity|].
  unfold inserted; cbn [lcN lcnext lcprev].
  split; [reflexivity|]. split; [updc|]. split; [updc|]. split; [updc|]. split; [updc|].
  split; intros z H1 H2; updc.
Qed.

Lemma prepend_single c x :
  0 < x < lcN c -> exists c', LCPrepend c NIL x = Ret (x, c') /\ singleton_made c c' x.
Proof.
  intros Hx. destruct (append_single c x Hx) as (c' & E & S). exists c'. split; [|exact S].
  unfold LCPrepend. rewrite E. cbn [bind]. destruct S as (S1 & S2 & S3 & S4).
  rewrite rd_prev_ok by lia. cbn [bind]. now rewrite S3.
Qed.

Lemma prepend_gap c h x :
  0 < x < lcN c -> 0 < h < lcN c -> 0 < lcprev c h < lcN c -> x <> h -> x <> lcprev c h ->
  exists c', LCPrepend c h x = Ret (x, c') /\ inserted c c' (lcprev c h) h x.
Proof.
  intros Hx Hh Hp N1 N2. destruct (append_gap c h x Hx Hh Hp N1 N2) as (c' & E & S).
  exists c'. split; [|exact S]. unfold LCPrepend. rewrite E. cbn [bind].
  destruct S as (S1 & S2 & S3 & S4 & S5 & _).
  rewrite rd_prev_ok by lia. cbn [bind]. now rewrite S5.
Qed.

Lemma mappend_single c x :
  0 < x < lcN c -> exists c', mLCAppend c NIL x = Ret (x, c') /\ singleton_made c c' x.
Proof. exact (append_single c x). Qed.
Lemma mprepend_single c x :
  0 < x < lcN c -> exists c', mLCPrepend c NIL x = Ret (x, c') /\ singleton_made c c' x.
Proof. exact (append_single c x). Qed.

Lemma mappend_gap c h x :
  0 < x < lcN c -> 0 < h < lcN c -> 0 < lcprev c h < lcN c -> x <> h -> x <> lcprev c h ->
  exists c', mLCAppend c h x = Ret (h, c') /\ inserted c c' (lcprev c h) h x.
Proof.
  intros Hx Hh Hp N1 N2. unfold mLCAppend. destruct (Z.eqb_spec h NIL) as [E|_]; [unfold NIL in E; lia|].
  lcrun. rewrite upd_same. lcrun. eexists. split; [reflexivity|].
  unfold inserted; cbn [lcN lcnext lcprev].
  split; [reflexivity|]. split; [updc|]. split; [updc|]. split; [updc|]. split; [updc|].
  split; intros z H1 H2; updc.
Qed.

Lemma mprepend_gap c h x :
  0 < x < lcN c -> 0 < h < lcN c -> 0 < lcprev c h < lcN c -> x <> h -> x <> lcprev c h ->
  exists c', mLCPrepend c h x = Ret (x, c') /\ inserted c c' (lcprev c h) h x.
Proof.
  intros Hx Hh Hp N1 N2. unfold mLCPrepend. destruct (Z.eqb_spec h NIL) as [E|_]; [unfold NIL in E; lia|].
  lcrun. rewrite upd_same. lcrun. rewrite upd_same. eexists. split; [reflexivity|].
  unfold inserted; cbn [lcN lcnext lcprev].
  split; [reflexivity|]. split; [updc|]. split; [updc|]. split; [updc|]. split; [updc|].
  split; intros z H1 H2; updc.
Qed.

Lemma after_gap c a x :
  0 < x < lcN c -> 0 < a < lcN c -> 0 < lcnext c a < lcN c -> x <> a -> x <> lcnext c a ->
  exists c', LCInsertAfter c a x = Ret c' /\ inserted c c' a (lcnext c a) x.
Proof.
  intros Hx Ha Hp N1 N2. unfold LCInsertAfter. lcrun.
  rewrite (upd_other _ _ _ a) by auto. lcrun. eexists. split; [reflexivity|].
  unfold inserted; cbn [lcN lcnext lcprev].
  split; [reflexivity|]. split; [updc|]. split; [updc|]. split; [updc|]. split; [updc|].
  split; intros z H1 H2; updc.
Qed.

(** Deletion from a list of at least two nodes. *)
Definition removed (c c' : lcoll) (p h x : Z) : Prop :=
  lcN c' = lcN c /\ lcnext c' p = h /\ lcprev c' h = p /\
  (forall z, z <> p -> z <> x -> lcnext c' z = lcnext c z) /\
  (forall z, z <> h -> z <> x -> lcprev c' z = lcprev c z).

Lemma delete_single c x :
  0 < x < lcN c -> lcnext c x = x ->
  exists c', LCDelete c x x = Ret (NIL, c') /\ lcN c' = lcN c /\
    (forall z, z <> x -> lcnext c' z = lcnext c z /\ lcprev c' z = lcprev c z).
Proof.
  intros Hx E. unfold LCDelete. lcrun. rewrite E, Z.eqb_refl. lcrun.
  eexists. split; [reflexivity|]. split; [reflexivity|]. cbn [lcnext lcprev].
  intros z Hz. now rewrite !upd_other.
Qed.
Lemma mdelete_single c x :
  0 < x < lcN c -> lcnext c x = x ->
  exists c', mLCDelete c x x = Ret (NIL, c') /\ lcN c' = lcN c /\
    (forall z, z <> x -> lcnext c' z = lcnext c z /\ lcprev c' z = lcprev c z).
Proof.
  intros Hx E. unfold mLCDelete. lcrun. rewrite E, Z.eqb_refl. lcrun.
  eexists. split; [reflexivity|]. split; [reflexivity|]. cbn [lcnext lcprev].
  intros z Hz. now rewrite !upd_other.
Qed.

Lemma delete_gap c h x :
  0 < h < lcN c -> lcnext c h <> h -> 0 < x < lcN c ->
  0 < lcprev c x < lcN c -> 0 < lcnext c x < lcN c -> lcprev c x <> x -> lcnext c x <> x ->
  exists c', LCDelete c h x = Ret (if h =? x then lcnext c x else h, c') /\
             removed c c' (lcprev c x) (lcnext c x) x.
Proof.
  intros Hh Hn Hx Hp Hs Np Ns. unfold LCDelete. lcrun.
  destruct (Z.eqb_spec (lcnext c h) h); [congruence|]. lcrun.
  eexists. split; [reflexivity|]. unfold removed; cbn [lcN lcnext lcprev].
  split; [reflexivity|]. split; [updc|]. split; [updc|]. split; intros z H1 H2; updc.
Qed.
Lemma mdelete_gap c h x :
  0 < h < lcN c -> lcnext c h <> h -> 0 < x < lcN c ->
  0 < lcprev c x < lcN c -> 0 < lcnext c x < lcN c -> lcprev c x <> x -> lcnext c x <> x ->
  exists c', mLCDelete c h x = Ret (if h =? x then lcnext c x else h, c') /\
             removed c c' (lcprev c x) (lcnext c x) x.
Proof.
  intros Hh Hn Hx Hp Hs Np Ns. unfold mLCDelete. lcrun.
  destruct (Z.eqb_spec (lcnext c h) h); [congruence|]. lcrun.
  rewrite !(upd_other _ (lcprev c x) _ x) by auto.
  lcrun. rewrite !(upd_other _ (lcprev c x) _ x) by auto.
  exists (mkLC (lcN c) (upd (lcnext c) (lcprev c x) (lcnext c x))
            (upd (lcprev c) (lcnext c x) (lcprev c x))).
  split; [now destruct (h =? x)|]. unfold removed; cbn [lcN lcnext lcprev].
  split; [reflexivity|]. split; [updc|]. split; [updc|]. split; intros z H1 H2; updc.
Qed.

(** ** List-level facts *)
Lemma put_after_split a x l1 l2 :
  ~ In a l1 -> put_after a x (l1 ++ a :: l2) = l1 ++ a :: x :: l2.
Proof.
  induction l1 as [|b l1 IH]; simpl; intros H.
  - now rewrite Z.eqb_refl.
  - destruct (Z.eqb_spec b a); [subst; tauto|]. now rewrite IH by tauto.
Qed.
Lemma put_after_notin a x l : ~ In a l -> put_after a x l = l.
Proof.
  induction l as [|b l IH]; simpl; intros H; auto.
  destruct (Z.eqb_spec b a); [subst; tauto|]. now rewrite IH by tauto.
Qed.
Lemma put_before_split a x l1 l2 :
  ~ In a l1 -> put_before a x (l1 ++ a :: l2) = l1 ++ x :: a :: l2.
Proof.
  induction l1 as [|b l1 IH]; simpl; intros H.
  - now rewrite Z.eqb_refl.
  - destruct (Z.eqb_spec b a); [subst; tauto|]. now rewrite IH by tauto.
Qed.
Lemma put_before_notin a x l : ~ In a l -> put_before a x l = l.
Proof.
  induction l as [|b l IH]; simpl; intros H; auto.
  destruct (Z.eqb_spec b a); [subst; tauto|]. now rewrite IH by tauto.
Qed.
Lemma insert_before_notin a x l : a <> NIL -> ~ In a l -> insert_before a x l = l.
Proof.
  intros Ha H. unfold insert_before. destruct l as [|b l]; cbn [hd].
  - now destruct (NIL =? a).
  - destruct (Z.eqb_spec b a); [subst; simpl in H; tauto|]. now apply put_before_notin.
Qed.
Lemma remove_split x l1 l2 :
  NoDup (l1 ++ x :: l2) -> remove Z.eq_dec x (l1 ++ x :: l2) = l1 ++ l2.
Proof.
  intros H. rewrite remove_app. simpl. destruct (Z.eq_dec x x); [|congruence].
  apply NoDup_remove_2 in H. rewrite in_app_iff in H.
  now rewrite !notin_remove by tauto.
Qed.

(** ** One list replaced, the others framed *)
Lemma holds_step s c' hs' ls i l' :
  holds s ls ->
  lcN c' = lcN (cl_c s) ->
  circular c' l' -> NoDup l' ->
  (forall x, In x l' -> 0 < x < lcN c') ->
  (forall x j, In x l' -> j <> i -> ~ In x (ls j)) ->
  hs' i = hd NIL l' -> (forall j, j <> i -> hs' j = cl_heads s j) ->
  (forall j z, j <> i -> In z (ls j) ->
     lcnext c' z = lcnext (cl_c s) z /\ lcprev c' z = lcprev (cl_c s) z) ->
  lcprev c' NIL = lcprev (cl_c s) NIL ->
  holds (mkCl c' hs') (upd ls i l').
Proof.
  intros [Hh Hc Hn Hr Hd Hz] EN Hl Hnl Hrl Hdl Hhi Hhj Hf Hnil. split; cbn [cl_c cl_heads].
  - intros j. destruct (Z.eq_dec j i) as [->|Hj]; [now rewrite upd_same|].
    rewrite upd_other by auto. now rewrite Hhj.
  - intros j. destruct (Z.eq_dec j i) as [->|Hj]; [now rewrite upd_same|].
    rewrite upd_other by auto. apply (circular_frame (cl_c s)); eauto.
  - intros j. destruct (Z.eq_dec j i) as [->|Hj]; [now rewrite upd_same|].
    rewrite upd_other; auto.
  - intros j x. destruct (Z.eq_dec j i) as [->|Hj]; [rewrite upd_same; auto|].
    rewrite upd_other by auto. rewrite EN. apply Hr.
  - intros j k x. destruct (Z.eq_dec j i) as [->|Hj], (Z.eq_dec k i) as [->|Hk];
      rewrite ?upd_same, ?upd_other by auto; auto.
    + intros H1 H2. exfalso. eapply Hdl; eauto.
    + intros H1 H2. exfalso. eapply Hdl; eauto.
    + intros. eapply Hd; eauto.
  - now rewrite Hnil.
Qed.

Lemma holds_ext s ls ls' : (forall i, ls' i = ls i) -> holds s ls -> holds s ls'.
Proof.
  intros E [Hh Hc Hn Hr Hd Hz]. split.
  - intros i. now rewrite E.
  - intros i. now rewrite E.
  - intros i. now rewrite E.
  - intros i x. rewrite E. apply Hr.
  - intros i j x. rewrite !E. apply Hd.
  - exact Hz.
Qed.

(** Facts about a non-empty list of the client. *)
Lemma holds_cons s ls i h t :
  holds s ls -> ls i = h :: t ->
  cl_heads s i = h /\ exists m p, h :: t = m ++ [p] /\ lcprev (cl_c s) h = p /\
    lcnext (cl_c s) p = h /\ 0 < h < lcN (cl_c s) /\ 0 < p < lcN (cl_c s).
Proof.
  intros H E. split; [rewrite (ho_head _ _ H), E; reflexivity|].
  destruct (exists_last (l := h :: t)) as (m & p & Em); [discriminate|].
  exists m, p. split; [exact Em|].
  pose proof (ho_circ _ _ H i) as Hc. rewrite E in Hc.
  rewrite (circular_app _ _ _ _ _ Em) in Hc. destruct Hc as (H1 & H2 & H3).
  split; [auto|]. split; [auto|]. split; apply (ho_range _ _ H i); rewrite E; [now left|].
  rewrite Em. apply in_or_app; right; now left.
Qed.

Lemma gap_frame c c' p h x : inserted c c' p h x -> forall z, z <> p -> z <> h -> z <> x ->
  lcnext c' z = lcnext c z /\ lcprev c' z = lcprev c z.
Proof. intros (_ & _ & _ & _ & _ & H1 & H2) z N1 N2 N3. split; auto. Qed.

(** Insertion in a gap of list [i], expressed on any rotation of it. *)
Lemma holds_insert s ls i c' hs' h t m p x l' :
  holds s ls -> free_node (lcN (cl_c s)) ls x ->
  h :: t = m ++ [p] -> circular (cl_c s) (h :: t) -> Permutation (ls i) (h :: t) ->
  inserted (cl_c s) c' p h x ->
  (exists r1 r2, l' = r1 ++ r2 /\ (h :: t) ++ [x] = r2 ++ r1) ->
  hs' i = hd NIL l' -> (forall j, j <> i -> hs' j = cl_heads s j) ->
  holds (mkCl c' hs') (upd ls i l').
Proof.
  intros H [Hx Hfree] E Hc Hperm Hins (r1 & r2 & El & Er) Hh1 Hh2.
  assert (Hnd : NoDup (h :: t)).
  { eapply Permutation_NoDup; [exact Hperm|]. apply (ho_nodup _ _ H). }
  assert (Hxn : ~ In x (h :: t)).
  { intros Hi. apply (Hfree i). eapply Permutation_in; [symmetry; exact Hperm|exact Hi]. }
  assert (Hperm' : Permutation l' (x :: ls i)).
  { rewrite El. rewrite Permutation_app_comm, <- Er, <- Permutation_cons_append.
    apply perm_skip. now symmetry. }
  pose proof Hins as (I1 & I2 & I3 & I4 & I5 & I6 & I7).
  assert (Hin : forall z, In z (h :: t) -> In z (ls i)).
  { intros z Hz. eapply Permutation_in; [symmetry; exact Hperm|exact Hz]. }
  apply (holds_step s); auto.
  - rewrite El. apply circular_rot. rewrite <- Er.
    apply (circular_insert (cl_c s) c' h t m p x); auto.
  - eapply Permutation_NoDup; [symmetry; exact Hperm'|]. constructor; [apply Hfree|].
    apply (ho_nodup _ _ H).
  - intros y Hy. rewrite I1. apply (Permutation_in _ Hperm') in Hy. destruct Hy as [<-|Hy]; [auto|].
    eapply (ho_range _ _ H); eauto.
  - intros y j Hy Hj Hy2. apply (Permutation_in _ Hperm') in Hy. destruct Hy as [<-|Hy].
    + eapply Hfree; eauto.
    + apply Hj. eapply (ho_disj _ _ H); eauto.
  - intros j z Hj Hz. apply (gap_frame _ _ _ _ _ Hins).
    + intros ->. apply Hj. eapply (ho_disj _ _ H); [exact Hz|]. apply Hin. rewrite E.
      apply in_or_app; right; now left.
    + intros ->. apply Hj. eapply (ho_disj _ _ H); [exact Hz|]. apply Hin. now left.
    + intros ->. eapply Hfree; eauto.
  - assert (Rh : 0 < h < lcN (cl_c s)) by (apply (ho_range _ _ H i), Hin; now left).
    apply I7; unfold NIL; lia.
Qed.

(** ** The two builds have the same basic effects *)
Definition append_ok (ap : lcoll -> Z -> Z -> res (Z * lcoll)) (ret : Z -> Z -> Z) : Prop :=
  (forall c x, 0 < x < lcN c -> exists c', ap c NIL x = Ret (x, c') /\ singleton_made c c' x) /\
  (forall c h x, 0 < x < lcN c -> 0 < h < lcN c -> 0 < lcprev c h < lcN c -> x <> h -> x <> lcprev c h ->
     exists c', ap c h x = Ret (ret h x, c') /\ inserted c c' (lcprev c h) h x).
Definition delete_ok (del : lcoll -> Z -> Z -> res (Z * lcoll)) : Prop :=
  (forall c x, 0 < x < lcN c -> lcnext c x = x ->
     exists c', del c x x = Ret (NIL, c') /\ lcN c' = lcN c /\
       (forall z, z <> x -> lcnext c' z = lcnext c z /\ lcprev c' z = lcprev c z)) /\
  (forall c h x, 0 < h < lcN c -> lcnext c h <> h -> 0 < x < lcN c ->
     0 < lcprev c x < lcN c -> 0 < lcnext c x < lcN c -> lcprev c x <> x -> lcnext c x <> x ->
     exists c', del c h x = Ret (if h =? x then lcnext c x else h, c') /\
                removed c c' (lcprev c x) (lcnext c x) x).

Lemma step_ends ap ret s ls i x l' :
  append_ok ap ret -> holds s ls -> free_node (lcN (cl_c s)) ls x ->
  (ls i = [] -> l' = [x]) ->
  (forall h t, ls i = h :: t ->
     (ret h x = x /\ l' = x :: h :: t) \/ (ret h x = h /\ l' = (h :: t) ++ [x])) ->
  exists h c, ap (cl_c s) (cl_heads s i) x = Ret (h, c) /\ lcN c = lcN (cl_c s) /\
    holds (mkCl c (upd (cl_heads s) i h)) (upd ls i l').
Proof.
  intros [A1 A2] H Hf Hl1 Hl2. pose proof Hf as [Hx Hfree].
  destruct (ls i) as [|h t] eqn:E.
  - rewrite (ho_head _ _ H), E. cbn [hd]. rewrite (Hl1 eq_refl).
    destruct (A1 (cl_c s) x Hx) as (c' & Ec & (S1 & S2 & S3 & S4)).
    exists x, c'. split; [exact Ec|]. split; [exact S1|].
    apply (holds_step s); auto.
    + simpl. auto.
    + constructor; [simpl; tauto|constructor].
    + intros y [<-|[]]. rewrite S1; auto.
    + intros y j [<-|[]] _. apply Hfree.
    + now rewrite upd_same.
    + intros j Hj. now rewrite upd_other.
    + intros j z Hj Hz. apply S4. intros ->. eapply Hfree; eauto.
    + apply S4. unfold NIL; lia.
  - destruct (holds_cons s ls i h t H E) as (Eh & m & p & Em & Hp & Hn & Rh & Rp).
    rewrite Eh. assert (Hne : forall z, In z (h :: t) -> x <> z).
    { intros z Hz ->. apply (Hfree i). now rewrite E. }
    destruct (A2 (cl_c s) h x) as (c' & Ec & Ins); auto.
    { now rewrite Hp. } { apply Hne; now left. }
    { rewrite Hp. apply Hne. rewrite Em. apply in_or_app; right; now left. }
    exists (ret h x), c'. split; [exact Ec|]. split; [apply Ins|].
    rewrite Hp in Ins.
    eapply (holds_insert s ls i c' _ h t m p x l'); eauto.
    + pose proof (ho_circ _ _ H i) as Hc. now rewrite E in Hc.
    + now rewrite E.
    + destruct (Hl2 h t eq_refl) as [[_ ->]|[_ ->]].
      * exists [x], (h :: t). split; reflexivity.
      * exists ((h :: t) ++ [x]), []. split; [now rewrite app_nil_r|reflexivity].
    + rewrite upd_same. destruct (Hl2 h t eq_refl) as [[-> ->]|[-> ->]]; reflexivity.
    + intros j Hj. now rewrite upd_other.
Qed.

Lemma step_before ap ret s ls a x :
  append_ok ap ret -> holds s ls -> free_node (lcN (cl_c s)) ls x -> (exists j, In a (ls j)) ->
  exists h c, ap (cl_c s) a x = Ret (h, c) /\ lcN c = lcN (cl_c s) /\
    holds (mkCl c (cl_heads s)) (fun j => insert_before a x (ls j)).
Proof.
  intros [A1 A2] H Hf [i Hi]. pose proof Hf as [Hx Hfree].
  destruct (in_split _ _ Hi) as (l1 & l2 & E).
  pose proof (ho_nodup _ _ H i) as Hnd. rewrite E in Hnd.
  pose proof (ho_circ _ _ H i) as Hc. rewrite E in Hc. apply circular_rot in Hc. cbn [app] in Hc.
  destruct (exists_last (l := a :: l2 ++ l1)) as (m & p & Em); [discriminate|].
  assert (Hperm : Permutation (ls i) (a :: l2 ++ l1)).
  { rewrite E. now rewrite Permutation_app_comm. }
  pose proof Hc as Hc'. rewrite (circular_app _ _ _ _ _ Em) in Hc'. destruct Hc' as (H1 & H2 & H3).
  assert (Hpin : In p (ls i)).
  { eapply Permutation_in; [symmetry; exact Hperm|]. rewrite Em. apply in_or_app; right; now left. }
  pose proof (ho_range _ _ H _ _ Hi) as Ra. pose proof (ho_range _ _ H _ _ Hpin) as Rp.
  destruct (A2 (cl_c s) a x) as (c' & Ec & Ins); auto.
  { now rewrite H3. } { intros ->; eapply Hfree; eauto. } { rewrite H3. intros ->; eapply Hfree; eauto. }
  rewrite H3 in Ins.
  exists (ret a x), c'. split; [exact Ec|]. split; [apply Ins|].
  apply (holds_ext _ (upd ls i (insert_before a x (ls i)))).
  { intros j. destruct (Z.eq_dec j i) as [->|Hj]; [now rewrite upd_same|].
    rewrite upd_other by auto. apply insert_before_notin; [unfold NIL; lia|].
    intros Hin. apply Hj. eapply (ho_disj _ _ H); eauto. }
  eapply (holds_insert s ls i c' _ a (l2 ++ l1) m p x); eauto.
  - unfold insert_before. rewrite E. destruct l1 as [|b l1].
    + cbn [app hd]. rewrite Z.eqb_refl. exists ((a :: l2) ++ [x]), [].
      rewrite !app_nil_r. split; reflexivity.
    + cbn [app hd]. destruct (Z.eqb_spec b a) as [->|Hb].
      { exfalso. cbn [app] in Hnd. apply NoDup_cons_iff in Hnd. destruct Hnd as [Hn _]. apply Hn.
        apply in_or_app; right; now left. }
      change (b :: l1 ++ a :: l2) with ((b :: l1) ++ a :: l2).
      rewrite put_before_split.
      2:{ intros Hin. apply (NoDup_app_disj _ _ a Hnd Hin). now left. }
      exists ((b :: l1) ++ [x]), (a :: l2). rewrite <- app_assoc. cbn [app].
      split; [reflexivity|]. f_equal. now rewrite <- app_assoc.
  - rewrite (ho_head _ _ H), E. unfold insert_before. destruct l1 as [|b l1].
    + cbn [app hd]. now rewrite Z.eqb_refl.
    + cbn [app hd]. destruct (Z.eqb_spec b a) as [->|Hb]; [reflexivity|].
      cbn [put_before]. destruct (Z.eqb_spec b a); [congruence|reflexivity].
Qed.

Lemma step_after s ls a x :
  holds s ls -> free_node (lcN (cl_c s)) ls x -> (exists j, In a (ls j)) ->
  exists c, LCInsertAfter (cl_c s) a x = Ret c /\ lcN c = lcN (cl_c s) /\
    holds (mkCl c (cl_heads s)) (fun j => put_after a x (ls j)).
Proof.
  intros H Hf [i Hi]. pose proof Hf as [Hx Hfree].
  destruct (in_split _ _ Hi) as (l1 & l2 & E).
  pose proof (ho_nodup _ _ H i) as Hnd. rewrite E in Hnd.
  assert (Er : l1 ++ a :: l2 = (l1 ++ [a]) ++ l2) by (now rewrite <- app_assoc).
  pose proof (ho_circ _ _ H i) as Hc. rewrite E, Er in Hc. apply circular_rot in Hc.
  destruct (l2 ++ l1 ++ [a]) as [|h t] eqn:Eh; [destruct l2, l1; discriminate|].
  assert (Em : h :: t = (l2 ++ l1) ++ [a]) by (now rewrite <- Eh, app_assoc).
  assert (Hperm : Permutation (ls i) (h :: t)).
  { rewrite E, Er, <- Eh. apply Permutation_app_comm. }
  pose proof Hc as Hc'. rewrite (circular_app _ _ _ _ _ Em) in Hc'. destruct Hc' as (H1 & H2 & H3).
  assert (Hhin : In h (ls i)).
  { eapply Permutation_in; [symmetry; exact Hperm|]. now left. }
  pose proof (ho_range _ _ H _ _ Hi) as Ra. pose proof (ho_range _ _ H _ _ Hhin) as Rh.
  destruct (after_gap (cl_c s) a x) as (c' & Ec & Ins); auto.
  { now rewrite H2. } { intros ->; eapply Hfree; eauto. } { rewrite H2. intros ->; eapply Hfree; eauto. }
  rewrite H2 in Ins.
  exists c'. split; [exact Ec|]. split; [apply Ins|].
  assert (Hna : ~ In a l1).
  { intros Hin. apply (NoDup_app_disj _ _ a Hnd Hin). now left. }
  apply (holds_ext _ (upd ls i (l1 ++ a :: x :: l2))).
  { intros j. destruct (Z.eq_dec j i) as [->|Hj].
    - rewrite upd_same, E. now apply put_after_split.
    - rewrite upd_other by auto. apply put_after_notin.
      intros Hin. apply Hj. eapply (ho_disj _ _ H); eauto. }
  eapply (holds_insert s ls i c' _ h t (l2 ++ l1) a x); eauto.
  - exists (l1 ++ a :: [x]), l2. split; [now rewrite <- app_assoc|].
    rewrite <- Eh. now rewrite <- !app_assoc.
  - rewrite (ho_head _ _ H), E. destruct l1; reflexivity.
Qed.

Lemma step_delete del s ls i x :
  delete_ok del -> holds s ls -> In x (ls i) ->
  exists h c, del (cl_c s) (cl_heads s i) x = Ret (h, c) /\ lcN c = lcN (cl_c s) /\
    holds (mkCl c (upd (cl_heads s) i h)) (upd ls i (remove Z.eq_dec x (ls i))).
Proof.
  intros [D1 D2] H Hi. destruct (in_split _ _ Hi) as (l1 & l2 & E).
  pose proof (ho_nodup _ _ H i) as Hnd. rewrite E in Hnd.
  pose proof (remove_split x l1 l2 Hnd) as Hrem. rewrite <- E in Hrem. rewrite Hrem.
  pose proof (ho_circ _ _ H i) as Hc. rewrite E in Hc. apply circular_rot in Hc. cbn [app] in Hc.
  pose proof (ho_range _ _ H _ _ Hi) as Rx.
  destruct (l2 ++ l1) as [|h t] eqn:Eh.
  - apply app_eq_nil in Eh. destruct Eh as [-> ->]. cbn [app] in *.
    rewrite (ho_head _ _ H), E. cbn [hd].
    unfold circular in Hc. cbn [app joined] in Hc.
    destruct (D1 (cl_c s) x) as (c' & Ec & EN & Fr); try tauto.
    exists NIL, c'. split; [exact Ec|]. split; [exact EN|].
    apply (holds_step s); [exact H|exact EN|..].
    + simpl. auto.
    + constructor.
    + intros y [].
    + intros y j [].
    + now rewrite upd_same.
    + intros j Hj. now rewrite upd_other.
    + intros j z Hj Hz. apply Fr. intros ->. apply Hj. eapply (ho_disj _ _ H); eauto.
    + apply Fr. unfold NIL; lia.
  - destruct (exists_last (l := h :: t)) as (m & p & Em); [discriminate|].
    assert (Em2 : x :: h :: t = (x :: m) ++ [p]) by (rewrite Em; reflexivity).
    pose proof Hc as Hc'. rewrite (circular_app _ _ _ _ _ Em2) in Hc'. destruct Hc' as (H1 & H2 & H3).
    rewrite joined_cons2 in H1. destruct H1 as (H4 & H5 & H6).
    assert (Hperm : Permutation (ls i) (x :: h :: t)).
    { rewrite E, <- Eh. now rewrite Permutation_app_comm. }
    assert (Hnd2 : NoDup (x :: h :: t)).
    { eapply Permutation_NoDup; [exact Hperm|]. apply (ho_nodup _ _ H). }
    assert (Hin : forall z, In z (x :: h :: t) -> In z (ls i)).
    { intros z Hz. eapply Permutation_in; [symmetry; exact Hperm|exact Hz]. }
    assert (Hh : In h (x :: h :: t)) by (right; now left).
    assert (Hp : In p (h :: t)) by (rewrite Em; apply in_or_app; right; now left).
    pose proof (ho_range _ _ H _ _ (Hin h Hh)) as Rh.
    pose proof (ho_range _ _ H _ _ (Hin p (or_intror Hp))) as Rp.
    pose proof Hnd2 as Hnd3. apply NoDup_cons_iff in Hnd3. destruct Hnd3 as [Hxn Hnd3].
    assert (Nh : h <> x) by (intros ->; apply Hxn; now left).
    assert (Np : p <> x) by (intros ->; auto).
    (* the head of the list *)
    assert (Hhd : exists b u, ls i = b :: u /\ In b (x :: h :: t)).
    { destruct (ls i) as [|b u] eqn:Eb; [destruct l1; discriminate|]. exists b, u.
      split; [auto|]. eapply Permutation_in; [exact Hperm|now left]. }
    destruct Hhd as (b & u & Eb & Hb).
    pose proof (ho_head _ _ H i) as Ehd. rewrite Eb in Ehd. cbn [hd] in Ehd. rewrite Ehd.
    assert (Nb : lcnext (cl_c s) b <> b).
    { destruct (holds_cons s ls i b u H Eb) as (_ & m' & q & Emq & Hq1 & Hq2 & _ & _).
      pose proof (ho_circ _ _ H i) as Hcb. rewrite Eb in Hcb.
      destruct u as [|b2 u].
      - exfalso. rewrite Eb in Hperm. apply Permutation_length in Hperm. discriminate.
      - rewrite (circular_app _ _ _ _ _ Emq) in Hcb. destruct Hcb as (J & _ & _).
        rewrite joined_cons2 in J. destruct J as (J & _ & _).
        pose proof (ho_nodup _ _ H i) as Hnb. rewrite Eb in Hnb. apply NoDup_cons_iff in Hnb.
        intros Hbb. apply (proj1 Hnb). left. congruence. }
    destruct (D2 (cl_c s) b x) as (c' & Ec & Rem); auto.
    { apply (ho_range _ _ H i). now apply Hin. }
    { now rewrite H3. } { now rewrite H4. } { now rewrite H3. } { now rewrite H4. }
    rewrite H3, H4 in *. pose proof Rem as (R1 & R2 & R3 & R4 & R5).
    exists (if b =? x then h else b), c'. split; [exact Ec|]. split; [exact R1|].
    assert (Hl : forall y, In y (l1 ++ l2) <-> In y (h :: t)).
    { intros y. rewrite <- Eh. apply in_app_comm. }
    apply (holds_step s); auto.
    + apply circular_rot. rewrite Eh. apply (circular_remove (cl_c s) c' x h t m p); auto.
    + eapply NoDup_remove_1; exact Hnd.
    + intros y Hy. rewrite R1. apply (ho_range _ _ H i). apply Hin. right. now apply Hl.
    + intros y j Hy Hj Hy2. apply Hj. eapply (ho_disj _ _ H); [exact Hy2|]. apply Hin. right. now apply Hl.
    + rewrite upd_same. rewrite E in Eb. destruct l1 as [|b' l1'].
      * cbn [app] in Eb. injection Eb as <- <-. rewrite Z.eqb_refl. cbn [app].
        rewrite app_nil_r in Eh. now rewrite Eh.
      * cbn [app] in Eb. injection Eb as <- <-. cbn [app hd].
        destruct (Z.eqb_spec b' x) as [->|]; [|reflexivity].
        exfalso. cbn [app] in Hnd. apply NoDup_cons_iff in Hnd. apply (proj1 Hnd).
        apply in_or_app; right; now left.
    + intros j Hj. now rewrite upd_other.
    + intros j z Hj Hz.
      assert (Nz : forall w, In w (x :: h :: t) -> z <> w).
      { intros w Hw ->. apply Hj. eapply (ho_disj _ _ H); [exact Hz|]. now apply Hin. }
      split; [apply R4|apply R5]; apply Nz; auto; [right; auto|now left|now left].
    + apply R5; unfold NIL; lia.
Qed.

Lemma fun_append : append_ok LCAppend (fun h _ => h).
Proof. split; [exact append_single|exact append_gap]. Qed.
Lemma fun_prepend : append_ok LCPrepend (fun _ x => x).
Proof. split; [exact prepend_single|exact prepend_gap]. Qed.
Lemma mac_append : append_ok mLCAppend (fun h _ => h).
Proof. split; [exact mappend_single|exact mappend_gap]. Qed.
Lemma mac_prepend : append_ok mLCPrepend (fun _ x => x).
Proof. split; [exact mprepend_single|exact mprepend_gap]. Qed.
Lemma fun_delete : delete_ok LCDelete.
Proof. split; [exact delete_single|exact delete_gap]. Qed.
Lemma mac_delete : delete_ok mLCDelete.
Proof. split; [exact mdelete_single|exact mdelete_gap]. Qed.

Definition step_refines (step : lclient -> lop -> res lclient) : Prop :=
  forall s ls o, holds s ls -> lop_valid (lcN (cl_c s)) ls o ->
    exists s', step s o = Ret s' /\ lcN (cl_c s') = lcN (cl_c s) /\ holds s' (lspec ls o).

Lemma lstep_refines : step_refines lstep.
Proof.
  intros s ls o H Hv. destruct o as [i x|i x|a x|a x|i x]; cbn [lop_valid lstep lspec] in *.
  - destruct (step_ends _ _ s ls i x (x :: ls i) fun_prepend H Hv) as (h & c & E & EN & Hh).
    { now intros ->. } { intros h t ->. left; auto. }
    rewrite E. eexists. split; [reflexivity|]. auto.
  - destruct (step_ends _ _ s ls i x (ls i ++ [x]) fun_append H Hv) as (h & c & E & EN & Hh).
    { now intros ->. } { intros h t ->. right; auto. }
    rewrite E. eexists. split; [reflexivity|]. auto.
  - destruct Hv as [Hf Ha]. destruct (step_after s ls a x H Hf Ha) as (c & E & EN & Hh).
    rewrite E. eexists. split; [reflexivity|]. auto.
  - destruct Hv as [Hf Ha]. destruct (step_before _ _ s ls a x fun_prepend H Hf Ha) as (h & c & E & EN & Hh).
    unfold LCInsertBefore. rewrite E. eexists. split; [reflexivity|]. auto.
  - destruct (step_delete _ s ls i x fun_delete H Hv) as (h & c & E & EN & Hh).
    rewrite E. eexists. split; [reflexivity|]. auto.
Qed.

Lemma mlstep_refines : step_refines mlstep.
Proof.
  intros s ls o H Hv. destruct o as [i x|i x|a x|a x|i x]; cbn [lop_valid mlstep lspec] in *.
  - destruct (step_ends _ _ s ls i x (x :: ls i) mac_prepend H Hv) as (h & c & E & EN & Hh).
    { now intros ->. } { intros h t ->. left; auto. }
    rewrite E. eexists. split; [reflexivity|]. auto.
  - destruct (step_ends _ _ s ls i x (ls i ++ [x]) mac_append H Hv) as (h & c & E & EN & Hh).
    { now intros ->. } { intros h t ->. right; auto. }
    rewrite E. eexists. split; [reflexivity|]. auto.
  - destruct Hv as [Hf Ha]. destruct (step_after s ls a x H Hf Ha) as (c & E & EN & Hh).
    rewrite E. eexists. split; [reflexivity|]. auto.
  - destruct Hv as [Hf Ha]. destruct (step_before _ _ s ls a x mac_prepend H Hf Ha) as (h & c & E & EN & Hh).
    unfold mLCInsertBefore. rewrite E. eexists. split; [reflexivity|]. auto.
  - destruct (step_delete _ s ls i x mac_delete H Hv) as (h & c & E & EN & Hh).
    rewrite E. eexists. split; [reflexivity|]. auto.
Qed.

Lemma run_refines step os : step_refines step -> forall s ls,
  holds s ls -> lhist_valid (lcN (cl_c s)) ls os ->
  exists s', lrun step s os = Ret s' /\ lcN (cl_c s') = lcN (cl_c s) /\ holds s' (lspec_run ls os).
Proof.
  intros HS. induction os as [|o os IH]; intros s ls H Hv; cbn [lrun lhist_valid] in *.
  - exists s. auto.
  - destruct Hv as [Hv1 Hv2]. destruct (HS s ls o H Hv1) as (s1 & E1 & EN1 & H1).
    rewrite E1. cbn [bind]. rewrite <- EN1 in Hv2.
    destruct (IH s1 _ H1 Hv2) as (s' & E & EN & H'). exists s'. split; [exact E|].
    split; [congruence|exact H'].
Qed.

(** ** Creation, reset and copy *)
Lemma lcreset_loop n : forall k c,
  0 <= k -> k + Z.of_nat n <= lcN c ->
  exists c', for_up n k (fun k c => c1 <- wr_next c k NIL ;; wr_prev c1 k NIL) c = Ret c' /\
    lcN c' = lcN c /\
    (forall i, k <= i < k + Z.of_nat n -> lcnext c' i = NIL /\ lcprev c' i = NIL) /\
    (forall i, ~ (k <= i < k + Z.of_nat n) -> lcnext c' i = lcnext c i /\ lcprev c' i = lcprev c i).
Proof.
  induction n as [|n IH]; intros k c Hk Hn; cbn [for_up].
  - exists c. split; [reflexivity|]. split; [reflexivity|]. split; [lia|auto].
  - lcrun.
    destruct (IH (k + 1) (mkLC (lcN c) (upd (lcnext c) k NIL) (upd (lcprev c) k NIL)))
      as (c' & E & EN & H1 & H2); cbn [lcN] in *; [lia|lia|].
    exists c'. split; [exact E|]. split; [exact EN|]. split.
    + intros i Hi. destruct (Z.eq_dec i k) as [->|].
      * destruct (H2 k) as [-> ->]; [lia|]. cbn [lcnext lcprev]. now rewrite !upd_same.
      * apply H1. lia.
    + intros i Hi. destruct (H2 i) as [-> ->]; [lia|]. cbn [lcnext lcprev].
      now rewrite !upd_other by lia.
Qed.

Lemma lcnew_ok jn jp n : 0 < n -> exists c, LCNew jn jp n = Ret (Some c) /\ lcN c = n /\
  forall i, 0 <= i < n -> lcnext c i = NIL /\ lcprev c i = NIL.
Proof.
  intros Hn. unfold LCNew. destruct (Z.leb_spec n 0); [lia|].
  unfold LCReset. cbn [lcN].
  destruct (lcreset_loop (Z.to_nat n) 0 (mkLC n jn jp)) as (c & E & EN & H1 & _); cbn [lcN] in *; [lia|lia|].
  rewrite E. exists c. split; [reflexivity|]. split; [exact EN|]. intros i Hi. apply H1. lia.
Qed.

Lemma holds_empty c : lcprev c NIL = NIL -> holds (mkCl c (fun _ => NIL)) no_lists.
Proof.
  intros Hz. split; cbn [cl_c cl_heads]; unfold no_lists; intros; simpl in *; auto; try tauto. constructor.
Qed.

Lemma lccopy_loop n : forall k d src,
  0 <= k -> k + Z.of_nat n <= lcN d -> lcN d = lcN src ->
  exists d', for_up n k (fun k d => n <- rd_next src k ;; p <- rd_prev src k ;;
                     d1 <- wr_next d k n ;; wr_prev d1 k p) d = Ret d' /\
    lcN d' = lcN d /\
    (forall i, k <= i < k + Z.of_nat n -> lcnext d' i = lcnext src i /\ lcprev d' i = lcprev src i) /\
    (forall i, ~ (k <= i < k + Z.of_nat n) -> lcnext d' i = lcnext d i /\ lcprev d' i = lcprev d i).
Proof.
  induction n as [|n IH]; intros k d src Hk Hn EN0; cbn [for_up].
  - exists d. split; [reflexivity|]. split; [reflexivity|]. split; [lia|auto].
  - lcrun.
    destruct (IH (k + 1) (mkLC (lcN d) (upd (lcnext d) k (lcnext src k)) (upd (lcprev d) k (lcprev src k))) src)
      as (c' & E & EN & H1 & H2); cbn [lcN] in *; [lia|lia|lia|].
    exists c'. split; [exact E|]. split; [exact EN|]. split.
    + intros i Hi. destruct (Z.eq_dec i k) as [->|].
      * destruct (H2 k) as [-> ->]; [lia|]. cbn [lcnext lcprev]. now rewrite !upd_same.
      * apply H1. lia.
    + intros i Hi. destruct (H2 i) as [-> ->]; [lia|]. cbn [lcnext lcprev].
      now rewrite !upd_other by lia.
Qed.

Lemma lccopy_ok d src : lcN d = lcN src -> 0 < lcN d ->
  exists d', LCCopy d src = Ret d' /\ lcN d' = lcN src /\
    forall i, 0 <= i < lcN src -> lcnext d' i = lcnext src i /\ lcprev d' i = lcprev src i.
Proof.
  intros E Hp. unfold LCCopy. rewrite E, Z.eqb_refl. cbn [negb]. rewrite <- E.
  destruct (lccopy_loop (Z.to_nat (lcN d)) 0 d src) as (d' & Ed & EN & H1 & _); [lia|lia|auto|].
  exists d'. split; [exact Ed|]. split; [congruence|]. intros i Hi. apply H1. lia.
Qed.

(** ** Iteration *)
Lemma visit_forward next c h l1 : forall l2 f,
  (next = LCGetNext \/ next = mLCGetNext) ->
  (forall x, In x (l1 ++ l2) -> 0 < x < lcN c) -> NoDup (l1 ++ l2) ->
  hd NIL (l1 ++ l2) = h -> circular c (l1 ++ l2) -> (length l2 < f)%nat ->
  visit f (next c h) (hd NIL l2) = Ret l2.
Proof.
  intros l2. revert l1. induction l2 as [|x l2 IH]; intros l1 f Hnx Hr Hnd Hh Hc Hf.
  - destruct f; [simpl in Hf; lia|]. reflexivity.
  - destruct f as [|f]; [simpl in Hf; lia|]. cbn [visit hd].
    assert (Rx : 0 < x < lcN c) by (apply Hr, in_or_app; right; now left).
    destruct (Z.eqb_spec x NIL) as [E|_]; [unfold NIL in E; lia|].
    assert (Hh0 : h <> NIL).
    { destruct (l1 ++ x :: l2) as [|h' t] eqn:E; [destruct l1; discriminate|]. cbn [hd] in Hh. subst h'.
      pose proof (Hr h (or_introl eq_refl)). unfold NIL; lia. }
    assert (Hx : lcnext c x = hd h l2).
    { destruct (l1 ++ x :: l2) as [|h' t] eqn:E; [destruct l1; discriminate|]. cbn [hd] in Hh. subst h'.
      unfold circular in Hc. rewrite <- E, <- app_assoc in Hc. cbn [app] in Hc.
      rewrite joined_app in Hc. destruct Hc as [_ Hc]. destruct l2; simpl in Hc |- *; tauto. }
    assert (Hst : next c h x = Ret (hd NIL l2)).
    { assert (Hne : l2 <> [] -> hd h l2 <> h).
      { intros Hl Eh. destruct l2 as [|y l2]; [congruence|]. cbn [hd] in Eh. subst y.
        assert (Hin : In h (l1 ++ [x])).
        { destruct l1 as [|b l1]; cbn [app hd] in *; subst; [now left|now left]. }
        replace (l1 ++ x :: h :: l2) with ((l1 ++ [x]) ++ h :: l2) in Hnd by (now rewrite <- app_assoc).
        apply (NoDup_app_disj _ _ h Hnd Hin). now left. }
      destruct Hnx as [-> | ->].
      - unfold LCGetNext. destruct (Z.eqb_spec h NIL); [congruence|].
        destruct (Z.eqb_spec x NIL) as [E|_]; [unfold NIL in E; lia|]. cbn [orb]. lcrun. rewrite Hx.
        destruct l2 as [|y l2]; cbn [hd]; [now rewrite Z.eqb_refl|].
        destruct (Z.eqb_spec y h) as [->|]; [|reflexivity]. exfalso. apply Hne; [discriminate|reflexivity].
      - unfold mLCGetNext. lcrun. rewrite Hx.
        destruct l2 as [|y l2]; cbn [hd]; [now rewrite Z.eqb_refl|].
        destruct (Z.eqb_spec y h) as [->|]; [|reflexivity]. exfalso. apply Hne; [discriminate|reflexivity]. }
    rewrite Hst. cbn [bind].
    assert (Ea : (l1 ++ [x]) ++ l2 = l1 ++ x :: l2) by (now rewrite <- app_assoc).
    rewrite (IH (l1 ++ [x])); try rewrite Ea; auto. simpl in Hf. lia.
Qed.

Lemma visit_backward prev c h l1 : forall l2 f,
  (prev = LCGetPrev \/ prev = mLCGetPrev) ->
  (forall x, In x (l1 ++ l2) -> 0 < x < lcN c) -> NoDup (l1 ++ l2) ->
  hd NIL (l1 ++ l2) = h -> joined c (l1 ++ l2) -> (length l1 < f)%nat ->
  visit f (prev c h) (last l1 NIL) = Ret (rev l1).
Proof.
  induction l1 as [|x l1 IH] using rev_ind; intros l2 f Hpv Hr Hnd Hh Hj Hf.
  - destruct f; [simpl in Hf; lia|]. reflexivity.
  - destruct f as [|f]; [simpl in Hf; lia|]. rewrite last_snoc. cbn [visit].
    rewrite rev_app_distr. cbn [rev app].
    rewrite <- app_assoc in *. cbn [app] in *.
    assert (Rx : 0 < x < lcN c) by (apply Hr, in_or_app; right; now left).
    destruct (Z.eqb_spec x NIL) as [E|_]; [unfold NIL in E; lia|].
    assert (Hst : prev c h x = Ret (last l1 NIL)).
    { assert (Hcore : (if x =? h then Ret NIL else rd_prev c x) = Ret (last l1 NIL)).
      { destruct l1 as [|y l1 _] using rev_ind.
        - cbn [app hd] in Hh. subst h. now rewrite Z.eqb_refl.
        - rewrite last_snoc. destruct (Z.eqb_spec x h) as [->|].
          { exfalso. apply (NoDup_app_disj _ _ h Hnd); [|now left].
            destruct l1; cbn [app hd] in *; subst; now left. }
          lcrun. rewrite <- app_assoc in Hj. cbn [app] in Hj. rewrite joined_app in Hj.
          destruct Hj as [_ Hj]. rewrite joined_cons2 in Hj. destruct Hj as (_ & -> & _). reflexivity. }
      assert (Hh0 : h <> NIL).
      { destruct (l1 ++ x :: l2) as [|h' t] eqn:E; [destruct l1; discriminate|]. cbn [hd] in Hh. subst h'.
        pose proof (Hr h (or_introl eq_refl)). unfold NIL; lia. }
      destruct Hpv as [-> | ->].
      - unfold LCGetPrev. destruct (Z.eqb_spec h NIL); [congruence|].
        destruct (Z.eqb_spec x NIL) as [E|_]; [unfold NIL in E; lia|]. exact Hcore.
      - unfold mLCGetPrev. destruct (Z.eqb_spec x NIL) as [E|_]; [unfold NIL in E; lia|]. exact Hcore. }
    rewrite Hst. cbn [bind].
    rewrite (IH (x :: l2)); auto. rewrite app_length in Hf. simpl in Hf. lia.
Qed.

Lemma forward_ok next s ls i f :
  (next = LCGetNext \/ next = mLCGetNext) -> holds s ls -> (length (ls i) < f)%nat ->
  forward next f (cl_c s) (cl_heads s i) = Ret (ls i).
Proof.
  intros Hnx H Hf. unfold forward. rewrite (ho_head _ _ H).
  apply (visit_forward next (cl_c s) (hd NIL (ls i)) [] (ls i)); auto.
  - apply (ho_range _ _ H). - apply (ho_nodup _ _ H). - apply (ho_circ _ _ H).
Qed.

Lemma backward_ok prev s ls i f :
  (prev = LCGetPrev \/ prev = mLCGetPrev) -> holds s ls -> 0 < lcN (cl_c s) -> (length (ls i) < f)%nat ->
  backward prev f (cl_c s) (cl_heads s i) = Ret (rev (ls i)).
Proof.
  intros Hpv H HN Hf. unfold backward. rewrite (ho_head _ _ H).
  destruct (ls i) as [|h t] eqn:E.
  - cbn [hd]. assert (E0 : prev (cl_c s) NIL NIL = Ret NIL).
    { destruct Hpv as [-> | ->]; unfold LCGetPrev, mLCGetPrev; rewrite Z.eqb_refl; [reflexivity|].
      rewrite rd_prev_ok by (unfold NIL; lia). now rewrite (ho_nil _ _ H). }
    rewrite E0. cbn [bind]. destruct f; [simpl in Hf; lia|]. reflexivity.
  - cbn [hd]. destruct (holds_cons s ls i h t H E) as (_ & m & p & Em & Hp & Hn & Rh & Rp).
    assert (E0 : prev (cl_c s) h NIL = Ret p).
    { destruct Hpv as [-> | ->]; unfold LCGetPrev, mLCGetPrev.
      - destruct (Z.eqb_spec h NIL) as [Ez|_]; [unfold NIL in Ez; lia|]. rewrite Z.eqb_refl.
        rewrite rd_prev_ok by lia. now rewrite Hp.
      - rewrite Z.eqb_refl. rewrite rd_prev_ok by lia. now rewrite Hp. }
    rewrite E0. cbn [bind].
    assert (El : last (h :: t) NIL = p) by (rewrite Em; apply last_snoc).
    rewrite <- El. apply (visit_backward prev (cl_c s) h (h :: t) []); rewrite ?app_nil_r; auto.
    + intros x Hx. apply (ho_range _ _ H i). now rewrite E.
    + pose proof (ho_nodup _ _ H i) as Hnd. now rewrite E in Hnd.
    + pose proof (ho_circ _ _ H i) as Hc. rewrite E in Hc.
      rewrite (circular_app _ _ _ _ _ Em) in Hc. apply Hc.
Qed.
