(** Lemmas on strings. *)
From Coq Require Import ZArith NArith Bool Ascii String List Lia.
From Verif Require Import Base Outcome Arith Decimal Heap HeapM Equal Lists ListsProofs Vectors VectorsThm Strings.
Import ListNotations.

(** The characters of a string. *)
Definition str_is (h : heap) (v : val) (s : list byte) : Prop :=
  exists b, str_at h v = Some b /\ cstr b = s.

Lemma str_at_ptr h v b : str_at h v = Some b -> exists l, v = VPtr l /\ nth_error h l = Some (CStr b).
Proof.
  unfold str_at, cell_of. destruct v; try discriminate.
  destruct (nth_error h l) as [[]|] eqn:E; try discriminate. intros [= <-]. eauto.
Qed.
Lemma str_at_nth h l b : nth_error h l = Some (CStr b) -> str_at h (VPtr l) = Some b.
Proof. unfold str_at, cell_of. now intros ->. Qed.
Lemma str_at_ext h h' v b : extends h h' -> str_at h v = Some b -> str_at h' v = Some b.
Proof. intros X H. destruct (str_at_ptr _ _ _ H) as (l & -> & E). apply str_at_nth. eapply extends_nth; eauto. Qed.
Lemma str_is_ext h h' v s : extends h h' -> str_is h v s -> str_is h' v s.
Proof. intros X (b & H & E). exists b. split; auto. eapply str_at_ext; eauto. Qed.
Lemma str_is_nul_free h v s : str_is h v s -> nul_free s.
Proof. intros (b & _ & <-). apply nul_free_cstr. Qed.
Lemma str_is_fun h v s t : str_is h v s -> str_is h v t -> s = t.
Proof. intros (b & H & <-) (c & H' & <-). congruence. Qed.

Lemma cstr_nth b i c : nth_error (cstr b) i = Some c -> nth_error b i = Some c.
Proof.
  revert i; induction b as [|x b IH]; intros i; simpl; [destruct i; discriminate|].
  destruct (Ascii.eqb x NUL); [destruct i; discriminate|]. destruct i; simpl; auto.
Qed.
Lemma cstr_upd b i c : i < length (cstr b) -> c <> NUL -> cstr (upd_nth i c b) = upd_nth i c (cstr b).
Proof.
  revert i; induction b as [|x b IH]; intros i; simpl; [lia|].
  destruct (Ascii.eqb_spec x NUL); [simpl; lia|]. intros Hi Hc. destruct i; simpl.
  - destruct (Ascii.eqb_spec c NUL); [congruence|auto].
  - destruct (Ascii.eqb_spec x NUL); [congruence|]. f_equal. apply IH; auto. simpl in Hi; lia.
Qed.
Lemma cstr_upd_nul b i : i < length (cstr b) -> cstr (upd_nth i NUL b) = firstn i (cstr b).
Proof.
  revert i; induction b as [|x b IH]; intros i; simpl; [lia|].
  destruct (Ascii.eqb_spec x NUL) as [->|Hx]; [simpl; lia|]. intros Hi. destruct i; simpl.
  - reflexivity.
  - destruct (Ascii.eqb_spec x NUL); [congruence|]. f_equal. apply IH. simpl in Hi; lia.
Qed.

Lemma string_length_ok h v s : str_is h v s -> c_string_length v h = HOk (Z.of_nat (length s)) h.
Proof. intros (b & H & <-). unfold c_string_length. now rewrite H. Qed.

Lemma string_ref_ok h v s z c : str_is h v s -> (0 <= z)%Z -> nth_error s (Z.to_nat z) = Some c ->
  p_string_ref v (VFix z) h = HOk (VChar c) h.
Proof.
  intros Hs Hz Hc. unfold p_string_ref, if_str, stringp, if_index. pose proof Hs as (b & H & <-).
  rewrite H. replace (0 <=? z)%Z with true by (symmetry; apply Z.leb_le; auto).
  rewrite (bind_ok _ _ _ _ _ (string_length_ok _ _ _ Hs)).
  assert (Z.to_nat z < length (cstr b)) by (apply nth_error_Some; congruence).
  replace (Z.of_nat (length (cstr b)) <=? z)%Z with false by (symmetry; apply Z.leb_gt; lia).
  unfold c_string_ref. rewrite H. replace (0 <=? z)%Z with true by (symmetry; apply Z.leb_le; auto).
  rewrite nth_error_app1 by (pose proof (cstr_length b); lia). now rewrite (cstr_nth _ _ _ Hc).
Qed.

(** Setting a character of the string at the end of the heap. *)
Lemma string_set_new h b z c : (0 <= z)%Z -> Z.to_nat z < length (cstr b) ->
  p_string_set (VPtr (length h)) (VFix z) (VChar c) (h ++ [CStr b]) =
  HOk VVoid (h ++ [CStr (upd_nth (Z.to_nat z) c b)]).
Proof.
  intros Hz Hl. unfold p_string_set, if_str, stringp, if_index.
  assert (H : str_at (h ++ [CStr b]) (VPtr (length h)) = Some b) by (apply str_at_nth, nth_snoc_new).
  rewrite H. replace (0 <=? z)%Z with true by (symmetry; apply Z.leb_le; auto).
  rewrite (bind_ok _ _ _ _ _ (string_length_ok _ _ (cstr b) (ex_intro _ b (conj H eq_refl)))).
  replace (Z.of_nat (length (cstr b)) <=? z)%Z with false by (symmetry; apply Z.leb_gt; lia).
  unfold bind, c_string_set. rewrite H.
  replace ((0 <=? z) && (z <? Z.of_nat (length b)))%Z with true.
  2:{ symmetry. rewrite andb_true_iff, Z.leb_le, Z.ltb_lt. pose proof (cstr_length b). lia. }
  rewrite upd_cell_app. reflexivity.
Qed.

Lemma upd_nth_app {A} (l : list A) x y r : upd_nth (length l) x (l ++ y :: r) = l ++ x :: r.
Proof. induction l; simpl; auto. now rewrite IHl. Qed.

Lemma nul_free_app a b : nul_free (a ++ b) <-> nul_free a /\ nul_free b.
Proof. unfold nul_free. rewrite in_app_iff. tauto. Qed.
Lemma nul_free_repeat c n : c <> NUL -> nul_free (repeat c n).
Proof. unfold nul_free. intros Hc H. apply repeat_spec in H. congruence. Qed.
Lemma nul_free_nth s i c : nul_free s -> nth_error s i = Some c -> c <> NUL.
Proof. intros H E ->. apply H. eapply nth_error_In; eauto. Qed.

(** One step of copying: character [j] of [x] to place [length done] of the string
    being built. *)
Lemma copy_char h x s j done k c fill : str_is h x s -> nth_error s j = Some c ->
  nul_free done -> fill <> NUL ->
  let h1 := h ++ [CStr (done ++ repeat fill (S k))] in
  p_string_ref x (VFix (Z.of_nat j)) h1 = HOk (VChar c) h1 /\
  p_string_set (VPtr (length h)) (VFix (Z.of_nat (length done))) (VChar c) h1 =
  HOk VVoid (h ++ [CStr ((done ++ [c]) ++ repeat fill k)]) /\ c <> NUL.
Proof.
  intros Hs Hc Hd Hf h1. pose proof (nul_free_nth _ _ _ (str_is_nul_free _ _ _ Hs) Hc) as Hn. split; [|split; auto].
  - eapply string_ref_ok; [eapply str_is_ext; [apply extends_snoc|exact Hs]|lia|]. now rewrite Nat2Z.id.
  - unfold h1. rewrite string_set_new; [|lia|].
    + rewrite Nat2Z.id. cbn [repeat]. rewrite upd_nth_app, <- app_assoc. reflexivity.
    + rewrite Nat2Z.id, cstr_nul_free.
      * rewrite app_length. simpl. lia.
      * apply nul_free_app; split; auto. now apply nul_free_repeat.
Qed.

Lemma string_append_loop_ok : forall fuel xs h ss done j,
  Forall2 (str_is h) xs ss -> nul_free done ->
  match ss with s :: _ => j <= length s | [] => j = 0 end ->
  length (concat ss) - j + length xs <= fuel ->
  string_append_loop fuel (VPtr (length h)) xs (Z.of_nat (length done)) (Z.of_nat j)
    (h ++ [CStr (done ++ repeat "0"%char (length (concat ss) - j))]) =
  HOk (VPtr (length h)) (h ++ [CStr (done ++ skipn j (concat ss))]).
Proof.
  induction fuel as [|f IH]; intros xs h ss done j H2 Hd Hj Hf.
  - destruct xs; [|simpl in Hf; lia]. inversion H2; subst. simpl. now rewrite skipn_nil.
  - destruct H2 as [|x s xs ss Hs H2]; [simpl; now rewrite skipn_nil|].
    cbn [string_append_loop]. set (n := length (concat (s :: ss)) - j).
    set (h1 := h ++ [CStr (done ++ repeat "0"%char n)]).
    rewrite (bind_ok _ _ _ _ _ (string_length_ok h1 x s (str_is_ext _ _ _ _ (extends_snoc _ _) Hs))).
    destruct (Z.leb_spec (Z.of_nat (length s)) (Z.of_nat j)) as [Hle|Hgt].
    + assert (j = length s) by lia. subst j.
      replace (skipn (length s) (concat (s :: ss))) with (skipn 0 (concat ss)).
      2:{ cbn [concat skipn]. rewrite skipn_app, skipn_all, Nat.sub_diag. reflexivity. }
      unfold h1, n. replace (length (concat (s :: ss)) - length s) with (length (concat ss) - 0)
        by (cbn [concat]; rewrite app_length; lia).
      change 0%Z with (Z.of_nat 0). apply IH; auto.
      * destruct ss; auto. lia.
      * simpl in Hf. rewrite app_length in Hf. lia.
    + destruct (nth_error s j) as [c|] eqn:Ec; [|apply nth_error_None in Ec; lia].
      assert (En : n = S (length (concat (s :: ss)) - S j)).
      { unfold n. cbn [concat]. rewrite app_length. lia. }
      unfold h1. rewrite En.
      destruct (copy_char h x s j done (length (concat (s :: ss)) - S j) c "0"%char Hs Ec Hd ltac:(discriminate))
        as (E1 & E2 & Hc).
      rewrite (bind_ok _ _ _ _ _ E1). rewrite (bind_ok _ _ _ _ _ E2).
      replace (Z.of_nat (length done) + 1)%Z with (Z.of_nat (length (done ++ [c]))) by (rewrite app_length; simpl; lia).
      replace (Z.of_nat j + 1)%Z with (Z.of_nat (S j)) by lia.
      rewrite IH; [|constructor; auto| | lia | cbn [concat] in *; rewrite app_length in *; simpl in *; lia].
      * do 3 f_equal. f_equal. rewrite <- app_assoc. f_equal. cbn [concat app].
        rewrite !skipn_app. replace (S j - length s) with 0 by lia. replace (j - length s) with 0 by lia.
        cbn [skipn]. clear - Ec.
        change (c :: skipn (S j) s ++ concat ss) with ((c :: skipn (S j) s) ++ concat ss). f_equal.
        revert j Ec; induction s as [|y s IH]; intros [|j] Ec; cbn in *; try discriminate; [congruence|].
        now apply IH.
      * apply nul_free_app. split; auto. intros [->|[]]; auto.
Qed.

Lemma check_strings_ok h xs ss : Forall2 (str_is h) xs ss -> check_strings xs h = HOk tt h.
Proof. induction 1 as [|x s xs ss (b & H & _) H2 IH]; auto. cbn [check_strings]. unfold stringp. now rewrite H. Qed.
Lemma sum_lengths_ok h xs ss n : Forall2 (str_is h) xs ss ->
  sum_lengths xs n h = HOk (n + Z.of_nat (length (concat ss)))%Z h.
Proof.
  intros H; revert n; induction H as [|x s xs ss Hs H2 IH]; intros n; cbn [sum_lengths].
  - simpl. unfold ret. do 2 f_equal. lia.
  - rewrite (bind_ok _ _ _ _ _ (string_length_ok _ _ _ Hs)), IH. f_equal. cbn [concat]. rewrite app_length. lia.
Qed.

Lemma skipn_S_nth {A} (s : list A) j c : nth_error s j = Some c -> skipn j s = c :: skipn (S j) s.
Proof. revert j; induction s as [|y s IH]; intros [|j] E; cbn in *; try discriminate; [congruence|]. now apply IH. Qed.

Lemma substring_loop_ok : forall k h x s done n fuel, str_is h x s -> nul_free done ->
  n + k <= length s -> k <= fuel ->
  substring_loop fuel x (VPtr (length h)) (Z.of_nat (length done)) (Z.of_nat n) (Z.of_nat (n + k))
    (h ++ [CStr (done ++ repeat "a"%char k)]) =
  HOk (VPtr (length h)) (h ++ [CStr (done ++ firstn k (skipn n s))]).
Proof.
  induction k as [|k IH]; intros h x s done n fuel Hs Hd Hn Hf.
  - rewrite Nat.add_0_r. destruct fuel; cbn [substring_loop]; rewrite Z.eqb_refl; reflexivity.
  - destruct fuel as [|f]; [lia|]. cbn [substring_loop].
    replace (Z.of_nat n =? Z.of_nat (n + S k))%Z with false by (symmetry; apply Z.eqb_neq; lia).
    destruct (nth_error s n) as [c|] eqn:Ec; [|apply nth_error_None in Ec; lia].
    destruct (copy_char h x s n done k c "a"%char Hs Ec Hd ltac:(discriminate)) as (E1 & E2 & Hc).
    rewrite (bind_ok _ _ _ _ _ E1). rewrite (bind_ok _ _ _ _ _ E2).
    replace (Z.of_nat (length done) + 1)%Z with (Z.of_nat (length (done ++ [c]))) by (rewrite app_length; simpl; lia).
    replace (Z.of_nat n + 1)%Z with (Z.of_nat (S n)) by lia.
    replace (n + S k) with (S n + k) by lia. rewrite (IH h x s); auto; try lia.
    + do 3 f_equal. f_equal. rewrite <- app_assoc. f_equal. rewrite (skipn_S_nth _ _ _ Ec). reflexivity.
    + apply nul_free_app. split; auto. intros [->|[]]; auto.
Qed.

(** ** Numbers *)

Lemma take_digits_all s : Forall (fun c => is_digit c = true) s -> take_digits s = s.
Proof. induction 1 as [|c s Hc Hs IH]; simpl; auto. now rewrite Hc, IH. Qed.

Lemma digit_not_space c : is_digit c = true -> is_space c = false /\ Ascii.eqb c "-" = false /\ Ascii.eqb c "+" = false.
Proof.
  unfold is_digit, is_space. rewrite andb_true_iff, !N.leb_le. intros [H1 H2]. repeat split.
  - rewrite orb_false_iff, andb_false_iff, N.eqb_neq, !N.leb_gt. lia.
  - apply Ascii.eqb_neq. intros ->. vm_compute in H1. congruence.
  - apply Ascii.eqb_neq. intros ->. vm_compute in H1. congruence.
Qed.

Lemma strtol_print z : strtol (print_long z) = clamp_long z.
Proof.
  unfold strtol, print_long. destruct (Z.ltb_spec z 0).
  - destruct (print_nat_spec (Z.to_N (- z))) as (Hv & Hd & _).
    cbn [skip_space]. replace (is_space "-") with false by reflexivity.
    replace (Ascii.eqb "-" "-") with true by reflexivity.
    rewrite take_digits_all, Hv by auto. f_equal. lia.
  - destruct (print_nat_spec (Z.to_N z)) as (Hv & Hd & Hne & _).
    destruct (print_nat (Z.to_N z)) as [|c r] eqn:E; [congruence|].
    inversion Hd as [|? ? Hc Hr]; subst. destruct (digit_not_space c Hc) as (S1 & S2 & S3).
    cbn [skip_space]. rewrite S1, S2, S3, take_digits_all, Hv by auto. f_equal. lia.
Qed.

Lemma is_digit_nul c : is_digit c = true -> c <> NUL.
Proof. intros H ->. discriminate. Qed.
Lemma print_long_nul_free z : nul_free (print_long z).
Proof.
  assert (D : forall n, nul_free (print_nat n)).
  { intros n H. destruct (print_nat_spec n) as (_ & Hd & _). rewrite Forall_forall in Hd. apply Hd in H. discriminate. }
  unfold print_long. destruct (z <? 0)%Z; auto. intros [H|H]; [discriminate|]. now apply (D _ H).
Qed.

(** A number below [10^k] has at most [k] digits. *)
Lemma dec_loop_length fuel : forall n acc k, (n < 10 ^ N.of_nat k)%N -> 1 <= k ->
  length (dec_loop fuel n acc) <= k + length acc.
Proof.
  induction fuel as [|f IH]; intros n acc k Hn Hk; cbn [dec_loop]; [lia|].
  destruct (N.ltb_spec n 10); [simpl; lia|].
  destruct k as [|[|k]]; [lia|simpl in Hn; lia|].
  assert (Hd : (n / 10 < 10 ^ N.of_nat (S k))%N).
  { apply N.div_lt_upper_bound; [lia|]. rewrite <- N.pow_succ_r'. rewrite <- Nat2N.inj_succ. exact Hn. }
  specialize (IH (n / 10)%N (digit_char (n mod 10) :: acc) (S k) Hd ltac:(lia)). simpl in *. lia.
Qed.
Lemma print_long_length z : is_long z -> length (print_long z) <= 24.
Proof.
  intros Hz. assert (D : forall n, (n < 10 ^ 23)%N -> length (print_nat n) <= 23).
  { intros n Hn. unfold print_nat. pose proof (dec_loop_length (S (N.size_nat n)) n [] 23 Hn ltac:(lia)). simpl in *. lia. }
  unfold is_long in Hz. assert (B : (2 ^ 63 < Z.of_N (10 ^ 23))%Z) by reflexivity.
  unfold print_long. destruct (Z.ltb_spec z 0); cbn [length]; [apply le_n_S|apply le_S]; apply D;
    remember (2 ^ 63)%Z as P; remember (10 ^ 23)%N as Q; lia.
Qed.
