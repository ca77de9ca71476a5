(** * StrFileP: strings and files read alike. *)
From Coq Require Import ZifyBool.
From Verif Require Import Base BaseP StrBufM StrFileM StrFileSpec GraphP.

Lemma m_rd_ok m i x : 0 <= i -> nth_error m (Z.to_nat i) = Some x -> m_rd m i = Ret x.
Proof. intros H E. unfold m_rd. replace (i <? 0) with false by lia. now rewrite E. Qed.

Lemma c_str_app s r : (forall x, In x s -> x <> 0) -> c_str (s ++ 0 :: r) = Ret s.
Proof.
  induction s as [|x s IH]; intros H; cbn [c_str app]; [reflexivity|].
  replace (x =? 0) with false by (specialize (H x (or_introl eq_refl)); lia).
  rewrite IH by (intros; apply H; simpl; auto). reflexivity.
Qed.
Lemma skipn_app_le {A} (s r : list A) k : (k <= length s)%nat -> skipn k (s ++ r) = skipn k s ++ r.
Proof. intros H. rewrite skipn_app. replace (k - length s)%nat with O by lia. reflexivity. Qed.
Lemma in_skipn {A} (x : A) k s : In x (skipn k s) -> In x s.
Proof. intros H. rewrite <- (firstn_skipn k s). apply in_or_app. auto. Qed.
Lemma c_str_at_app s k : (forall x, In x s -> x <> 0) -> (k <= length s)%nat ->
  c_str_at (s ++ [0]) (Z.of_nat k) = Ret (skipn k s).
Proof.
  intros H Hk. unfold c_str_at. rewrite app_length. cbn [length].
  replace ((Z.of_nat k <? 0) || (Z.of_nat (length s + 1) <=? Z.of_nat k)) with false by lia.
  rewrite Nat2Z.id, skipn_app_le by auto. apply c_str_app. intros x Hx. apply H. eapply in_skipn; eauto.
Qed.

(** What a block holds after a string was copied to its start. *)
Lemma strcpy_at : forall s b off, 0 <= off -> off + Z.of_nat (length s) < bsz b ->
  exists b', strcpy_str b off s = Ret b' /\ bsz b' = bsz b /\
    (forall i, i < off \/ off + Z.of_nat (length s) < i -> bdat b' i = bdat b i) /\
    (forall i, (i < length s)%nat -> bdat b' (off + Z.of_nat i) = nth i s 0) /\ bdat b' (off + Z.of_nat (length s)) = 0.
Proof.
  induction s as [|x s IH]; intros b off H0 H1; cbn [strcpy_str length] in *.
  - unfold b_wr, b_inb. rewrite guard_true by lia. eexists. split; [reflexivity|]. cbn [bsz bdat].
    split; [auto|]. split; [intros i Hi; apply upd_other; lia|]. split; [intros i Hi; lia|].
    replace (off + Z.of_nat 0) with off by lia. apply upd_same.
  - unfold b_wr, b_inb. rewrite guard_true, bind_ret by lia.
    destruct (IH (mkBlk (bsz b) (upd (bdat b) off x)) (off + 1)) as (b' & E & Z1 & F & G & Z0); cbn [bsz]; [lia|lia|].
    exists b'. split; [auto|]. cbn [bsz bdat] in *. split; [auto|]. split; [|split].
    + intros i Hi. rewrite F by lia. apply upd_other. lia.
    + intros [|i] Hi; cbn [nth].
      * replace (off + Z.of_nat 0) with off by lia. rewrite F by lia. apply upd_same.
      * replace (off + Z.of_nat (S i)) with (off + 1 + Z.of_nat i) by lia. apply G. lia.
    + replace (off + Z.of_nat (S (length s))) with (off + 1 + Z.of_nat (length s)) by lia. auto.
Qed.

Lemma map_seq_split {A} (f : nat -> A) n k : (k < n)%nat ->
  map f (seq 0 n) = map f (seq 0 k) ++ f k :: map f (seq (S k) (n - S k)).
Proof.
  intros H. replace n with (k + S (n - S k))%nat at 1 by lia. rewrite seq_app, map_app. cbn [seq map Nat.add]. reflexivity.
Qed.
Lemma map_nth_seq (s : list Z) (f : nat -> Z) : (forall i, (i < length s)%nat -> f i = nth i s 0) -> map f (seq 0 (length s)) = s.
Proof.
  intros H. apply nth_ext with (d := 0) (d' := 0); [now rewrite map_length, seq_length|].
  intros i Hi. rewrite map_length, seq_length in Hi.
  rewrite (nth_indep _ 0 (f 0%nat)) by now rewrite map_length, seq_length.
  rewrite (map_nth f). rewrite seq_nth by auto. apply H. auto.
Qed.

Lemma text_of_strcpy b s : (forall x, In x s -> x <> 0) -> Z.of_nat (length s) < bsz b ->
  (b' <- strcpy_str b 0 s ;; text_of b') = Ret s.
Proof.
  intros H Hl. destruct (strcpy_at s b 0 ltac:(lia) ltac:(lia)) as (b' & E & Z1 & _ & G & Z0).
  rewrite E, bind_ret. unfold text_of. rewrite map_map, Z1.
  rewrite (map_seq_split _ (Z.to_nat (bsz b)) (length s)) by lia.
  rewrite (map_nth_seq s) by (intros i Hi; rewrite <- (G i Hi); f_equal; lia).
  replace (0 + Z.of_nat (length s)) with (Z.of_nat (length s)) in Z0 by lia. rewrite Z0.
  apply c_str_app. auto.
Qed.

Lemma fgets_take_spec : forall n s, fgets_take n s =
  let t := match cut_after CH_LF (firstn n s) with Some t => t | None => firstn n s end in (t, skipn (length t) s).
Proof.
  induction n as [|n IH]; intros [|x s]; cbn [fgets_take firstn cut_after skipn length]; auto.
  destruct (x =? CH_LF) eqn:E; [reflexivity|]. rewrite IH. cbv zeta.
  destruct (cut_after CH_LF (firstn n s)); cbn [length skipn]; reflexivity.
Qed.
Lemma fgets_len n s : (length (fst (fgets_take n s)) <= n)%nat.
Proof.
  revert s. induction n as [|n IH]; intros [|x s]; cbn [fgets_take fst length]; try lia.
  destruct (x =? CH_LF); cbn [fst length]; [lia|]. specialize (IH s). destruct (fgets_take n s). cbn [fst length] in *. lia.
Qed.
Lemma fgets_app n s : fst (fgets_take n s) ++ snd (fgets_take n s) = s.
Proof.
  revert s. induction n as [|n IH]; intros [|x s]; cbn [fgets_take fst snd app]; auto.
  destruct (x =? CH_LF); [reflexivity|]. specialize (IH s). destruct (fgets_take n s). cbn [fst snd app] in *. now rewrite IH.
Qed.
Lemma cut_none d s : ~ In d s -> cut_after d s = None.
Proof.
  induction s as [|x s IH]; intros H; cbn [cut_after]; auto.
  replace (x =? d) with false by (destruct (Z.eqb_spec x d); auto; subst; exfalso; apply H; simpl; auto).
  rewrite IH; auto. intros Hi. apply H. simpl. auto.
Qed.
Lemma in_firstn {A} (x : A) k s : In x (firstn k s) -> In x s.
Proof. intros H. rewrite <- (firstn_skipn k s). apply in_or_app. auto. Qed.

Lemma skipn_skipn_add {A} : forall k j (s : list A), skipn j (skipn k s) = skipn (k + j) s.
Proof. induction k as [|k IH]; intros j s; [reflexivity|]. destruct s as [|x s]; [now rewrite !skipn_nil|]. apply IH. Qed.

(** The string container at position k and the file with the rest of the text. *)
Record alike (s : list Z) (last : option Z) (c1 c2 : container) (k : nat) : Prop := {
  al_str : c1 = CStr (s ++ [0]) (Z.of_nat k);
  al_file : exists out, c2 = CFile (skipn k s) out;
  al_k : (k <= length s)%nat;
  al_last : forall x, last = Some x -> exists k', k = S k' /\ nth_error s k' = Some x /\ x <> C_EOF }.

Lemma m_set_same : forall k s x r, nth_error s k = Some x -> m_set (s ++ r) k x = s ++ r.
Proof.
  induction k as [|k IH]; intros [|y s] x r H; cbn [nth_error] in H; try discriminate; cbn [m_set app].
  - congruence.
  - f_equal. apply IH. auto.
Qed.
Lemma skipn_nth {A} : forall k (s : list A) x, nth_error s k = Some x -> skipn k s = x :: skipn (S k) s.
Proof.
  induction k as [|k IH]; intros [|y s] x H; cbn [nth_error] in H; try discriminate; cbn [skipn].
  - congruence.
  - rewrite (IH s x H). reflexivity.
Qed.

Lemma alike_step s last c1 c2 k o : plain_text s -> no_cr s -> (forall n, o = RLine n -> 2 <= n) ->
  alike s last c1 c2 k ->
  exists ob last' c1' c2' k', rstep last c1 o = Ret (ob, last', c1') /\ rstep last c2 o = Ret (ob, last', c2') /\
    alike s last' c1' c2' k'.
Proof.
  intros P NC Hn [-> [out ->] Hk Hl]. destruct o as [| |n]; cbn [rstep].
  - cbn [sf_getc]. destruct (nth_error s k) as [x|] eqn:E.
    + assert (Hin : In x s) by (eapply nth_error_In; eauto). destruct (P x Hin) as [P1 P2].
      assert (Hlt : (k < length s)%nat) by (apply nth_error_Some; congruence).
      rewrite (m_rd_ok _ _ x), bind_ret by (rewrite ?Nat2Z.id, ?nth_error_app1; auto; lia).
      replace (x =? 0) with false by lia. rewrite (skipn_nth _ _ _ E). rewrite !bind_ret. cbv beta iota.
      replace (x =? C_EOF) with false by lia.
      do 2 eexists. exists (CStr (s ++ [0]) (Z.of_nat k + 1)), (CFile (skipn (S k) s) out), (S k).
      split; [reflexivity|]. split; [reflexivity|].
      constructor; [f_equal; lia|eauto|lia|]. intros y [= <-]. eauto.
    + apply nth_error_None in E. assert (k = length s) as -> by lia.
      rewrite (m_rd_ok _ _ 0), bind_ret by first [lia | rewrite Nat2Z.id, nth_error_app2, Nat.sub_diag by lia; reflexivity].
      rewrite skipn_all. cbn [Z.eqb]. rewrite !bind_ret. cbv beta iota. change (C_EOF =? C_EOF) with true. cbv iota.
      do 2 eexists. exists (CStr (s ++ [0]) (Z.of_nat (length s))), (CFile [] out), (length s).
      do 2 (split; [reflexivity|]). constructor; [auto|rewrite skipn_all; eauto|lia|discriminate].
  - destruct last as [x|].
    + destruct (Hl x eq_refl) as (k' & -> & E & Hx). cbn [sf_ungetc].
      replace (Z.of_nat (S k') <=? 0) with false by lia.
      unfold m_wr. rewrite app_length. cbn [length].
      replace ((Z.of_nat (S k') - 1 <? 0) || (Z.of_nat (length s + 1) <=? Z.of_nat (S k') - 1)) with false by lia.
      rewrite !bind_ret. replace (Z.to_nat (Z.of_nat (S k') - 1)) with k' by lia. rewrite m_set_same by auto.
      replace (x =? C_EOF) with false by lia. rewrite !bind_ret.
      do 2 eexists. exists (CStr (s ++ [0]) (Z.of_nat (S k') - 1)), (CFile (x :: skipn (S k') s) out), k'.
      do 2 (split; [reflexivity|]). constructor; [f_equal; lia|rewrite (skipn_nth _ _ _ E); eauto|lia|discriminate].
    + do 5 eexists. do 2 (split; [reflexivity|]). constructor; eauto.
  - specialize (Hn n eq_refl). unfold sf_fgets. replace (n <? 0) with false by lia.
    destruct (nth_error s k) as [x|] eqn:E.
    + assert (Hin : In x s) by (eapply nth_error_In; eauto). destruct (P x Hin) as [P1 P2].
      assert (Hlt : (k < length s)%nat) by (apply nth_error_Some; congruence).
      rewrite (m_rd_ok _ _ x), bind_ret by (rewrite ?Nat2Z.id, ?nth_error_app1; auto; lia).
      replace (x =? 0) with false by lia. cbn [bsz]. rewrite !guard_true by lia.
      rewrite c_str_at_app, bind_ret by (auto; intros y Hy; apply (P y Hy)). cbv zeta.
      rewrite (cut_none CH_CR) by (intros Hy; apply NC; eapply in_skipn, in_firstn; eauto).
      replace (match skipn k s with [] => _ | _ :: _ => _ end) with
        (let '(t, r) := fgets_take (Z.to_nat (n - 1)) (skipn k s) in
         b <- strcpy_str (mkBlk n (fun _ => 77)) 0 t ;; Ret (Some b, CFile r out)) by (rewrite (skipn_nth _ _ _ E); reflexivity).
      rewrite fgets_take_spec. cbv zeta. set (t := match cut_after CH_LF _ with Some _ => _ | None => _ end).
      assert (Ht : t = fst (fgets_take (Z.to_nat (n - 1)) (skipn k s))) by (rewrite fgets_take_spec; reflexivity).
      assert (Lt : (length t <= Z.to_nat (n - 1))%nat) by (rewrite Ht; apply fgets_len).
      assert (At : t ++ skipn (length t) (skipn k s) = skipn k s).
      { pose proof (fgets_app (Z.to_nat (n - 1)) (skipn k s)) as A. rewrite fgets_take_spec in A. exact A. }
      assert (T0 : forall y, In y t -> y <> 0).
      { intros y Hy. apply (P y). eapply in_skipn. rewrite <- At. apply in_or_app. eauto. }
      pose proof (text_of_strcpy (mkBlk n (fun _ => 77)) t T0 ltac:(cbn [bsz]; lia)) as T.
      destruct (strcpy_str (mkBlk n (fun _ => 77)) 0 t) as [b| |] eqn:Eb; cbn [bind] in T; try discriminate.
      rewrite !bind_ret. cbv beta iota. rewrite T, !bind_ret. rewrite ?Eb, !bind_ret. cbv beta iota. rewrite ?T, ?bind_ret.
      do 2 eexists. exists (CStr (s ++ [0]) (Z.of_nat k + Z.of_nat (length t))), (CFile (skipn (length t) (skipn k s)) out), (k + length t)%nat.
      do 2 (split; [reflexivity|]).
      assert (Len : (k + length t <= length s)%nat).
      { apply (f_equal (@length Z)) in At. rewrite app_length, !skipn_length in At. lia. }
      constructor; [f_equal; lia| |auto|discriminate]. exists out. f_equal. apply skipn_skipn_add.
    + apply nth_error_None in E. assert (k = length s) as -> by lia.
      rewrite (m_rd_ok _ _ 0), bind_ret by first [lia | rewrite Nat2Z.id, nth_error_app2, Nat.sub_diag by lia; reflexivity].
      rewrite skipn_all. cbn [Z.eqb bsz]. rewrite !guard_true by lia. replace (n =? 1) with false by lia. rewrite !bind_ret.
      do 2 eexists. exists (CStr (s ++ [0]) (Z.of_nat (length s))), (CFile [] out), (length s).
      do 2 (split; [reflexivity|]). constructor; [auto|rewrite skipn_all; eauto|lia|discriminate].
Qed.

Lemma alike_run s os : plain_text s -> no_cr s -> forall last c1 c2 k, lines_ok os -> alike s last c1 c2 k ->
  exists obs, rrun last c1 os = Ret obs /\ rrun last c2 os = Ret obs.
Proof.
  intros P NC. induction os as [|o os IH]; intros last c1 c2 k Hn A; cbn [rrun]; [eauto|].
  destruct (alike_step s last c1 c2 k o P NC ltac:(intros n ->; apply Hn; simpl; auto) A) as (ob & last' & c1' & c2' & k' & E1 & E2 & A').
  rewrite E1, E2, !bind_ret. destruct (IH last' c1' c2' k' ltac:(intros n H; apply Hn; simpl; auto) A') as (obs & F1 & F2).
  cbv beta iota. rewrite F1, F2, !bind_ret. eauto.
Qed.

Lemma wrun_ok : forall ts s inp out pos, (forall x, In x s -> x <> 0) -> (forall t x, In t ts -> In x t -> x <> 0) ->
  wrun (CStr (s ++ [0]) pos) ts = Ret (CStr ((s ++ concat ts) ++ [0]) (pos + Z.of_nat (length (concat ts)))) /\
  wrun (CFile inp out) ts = Ret (CFile inp (out ++ concat ts)).
Proof.
  induction ts as [|t ts IH]; intros s inp out pos Hs Ht; cbn [wrun concat].
  - rewrite !app_nil_r. cbn [length]. replace (pos + Z.of_nat 0) with pos by lia. auto.
  - cbn [sf_fputs]. rewrite c_str_app, !bind_ret by auto. cbv beta iota zeta. rewrite app_assoc.
    destruct (IH (s ++ t) inp (out ++ t) (pos + Z.of_nat (length t))) as [E1 E2].
    + intros x Hx. apply in_app_or in Hx. destruct Hx; [auto|]. eapply Ht; simpl; eauto.
    + intros t' x Hx. apply Ht. simpl. auto.
    + rewrite E1, E2, <- !app_assoc, !app_length. split; [|reflexivity]. do 2 f_equal. lia.
Qed.
