(** Decimal printing of machine integers, as done by [printf("%ld")]
    (src/core/c/string.c:65-70, print.c:91, symbol.c:192-206) and the digit
    accumulation loop used to read them back (src/core/c/read.c:380-395). *)
From Coq Require Import ZArith NArith Bool Ascii String List Lia.
From Verif Require Import Base.
Import ListNotations.
Local Open Scope N_scope.

Definition digit_char (d : N) : byte := ascii_of_N (48 + d).
Definition char_digit (c : byte) : N := N_of_ascii c - 48.
Definition is_digit (c : byte) : bool := (48 <=? N_of_ascii c) && (N_of_ascii c <=? 57).

(** Most significant digit first, no superfluous leading zero. *)
Fixpoint dec_loop (fuel : nat) (n : N) (acc : list byte) : list byte :=
  match fuel with
  | O => acc
  | S f => if n <? 10 then digit_char n :: acc
           else dec_loop f (n / 10) (digit_char (n mod 10) :: acc)
  end.
Definition print_nat (n : N) : list byte := dec_loop (S (N.size_nat n)) n [].

(** [printf("%ld", z)]. *)
Definition print_long (z : Z) : list byte :=
  if (z <? 0)%Z then "-"%char :: print_nat (Z.to_N (- z)) else print_nat (Z.to_N z).

(** Value of a digit string. *)
Definition digits_value (l : list byte) : N := fold_left (fun a c => 10 * a + char_digit c) l 0.

Lemma ascii_N_small n : n < 256 -> N_of_ascii (ascii_of_N n) = n.
Proof. apply N_ascii_embedding. Qed.

Lemma char_digit_char d : d < 10 -> char_digit (digit_char d) = d.
Proof. intros; unfold char_digit, digit_char; rewrite ascii_N_small; lia. Qed.
Lemma is_digit_char d : d < 10 -> is_digit (digit_char d) = true.
Proof.
  intros; unfold is_digit, digit_char; rewrite ascii_N_small by lia.
  rewrite andb_true_iff, !N.leb_le; lia.
Qed.

Lemma size_nat_div2 n : n <> 0 -> N.size_nat n = S (N.size_nat (N.div2 n)).
Proof. destruct n as [|[p|p|]]; simpl; auto; congruence. Qed.
Lemma size_nat_mono_lt n k : n < 2 ^ N.of_nat k -> (N.size_nat n <= k)%nat.
Proof.
  revert n; induction k; intros n H.
  - simpl in H. assert (n = 0) by lia. subst; simpl; lia.
  - destruct (N.eq_dec n 0) as [->|Hn]; [simpl; lia|].
    rewrite size_nat_div2 by auto. apply le_n_S, IHk.
    rewrite Nat2N.inj_succ, N.pow_succ_r' in H. rewrite N.div2_div.
    apply N.div_lt_upper_bound; lia.
Qed.
Lemma size_nat_bound n : n < 2 ^ N.of_nat (N.size_nat n).
Proof.
  induction n as [n IH] using (well_founded_induction N.lt_wf_0).
  destruct (N.eq_dec n 0) as [->|Hn]; [simpl; lia|].
  rewrite size_nat_div2 by auto. rewrite Nat2N.inj_succ, N.pow_succ_r'.
  assert (N.div2 n < n) by (rewrite N.div2_div; apply N.div_lt; lia).
  specialize (IH _ H). pose proof (N.div2_odd n) as E.
  remember (2 ^ N.of_nat (N.size_nat (N.div2 n))) as P.
  remember (N.div2 n) as q. destruct (N.odd n); cbn [N.b2n] in E; lia.
Qed.

(** The loop with its precondition spelt out. *)
Lemma dec_loop_spec fuel : forall n acc, n < 2 ^ N.of_nat fuel -> (0 < fuel)%nat ->
  exists ds, dec_loop fuel n acc = ds ++ acc /\ digits_value ds = n /\
    Forall (fun c => is_digit c = true) ds /\ ds <> [] /\
    (n <> 0 -> hd NUL ds <> "0"%char) /\ (n = 0 -> ds = ["0"%char]).
Proof.
  induction fuel as [|f IH]; intros n acc Hn Hf; [lia|].
  cbn [dec_loop]. destruct (N.ltb_spec n 10) as [Hlt|Hge].
  - exists [digit_char n]. split; [reflexivity|]. split.
    { unfold digits_value; cbn [fold_left]. rewrite char_digit_char by auto. lia. }
    split; [constructor; [apply is_digit_char; auto|constructor]|].
    split; [discriminate|]. split.
    + intros Hz. cbn. intro E. assert (E' : char_digit (digit_char n) = 0) by (rewrite E; reflexivity).
      rewrite char_digit_char in E' by auto; congruence.
    + intros ->; reflexivity.
  - assert (Hf' : (0 < f)%nat).
    { destruct f; [|lia]. exfalso. cbn in Hn. lia. }
    destruct (IH (n / 10) (digit_char (n mod 10) :: acc)) as (ds & E & Hv & Hd & Hne & Hz & _).
    + apply N.div_lt_upper_bound; [lia|]. rewrite Nat2N.inj_succ, N.pow_succ_r' in Hn. lia.
    + auto.
    + exists (ds ++ [digit_char (n mod 10)]). rewrite E, <- app_assoc.
      split; [reflexivity|].
      assert (Hm : n mod 10 < 10) by (apply N.mod_lt; lia).
      split.
      { unfold digits_value in *. rewrite fold_left_app. cbn [fold_left]. rewrite Hv, char_digit_char by auto.
        symmetry; apply N.div_mod; lia. }
      split; [apply Forall_app; split; auto; constructor; [apply is_digit_char; auto|constructor]|].
      split; [destruct ds; discriminate|]. split.
      * intros _. assert (n / 10 <> 0).
        { intro Hq. apply N.div_small_iff in Hq; lia. }
        destruct ds; [congruence|]. apply Hz; auto.
      * intros; lia.
Qed.

Lemma print_nat_spec n :
  digits_value (print_nat n) = n /\ Forall (fun c => is_digit c = true) (print_nat n) /\
  print_nat n <> [] /\ (n <> 0 -> hd NUL (print_nat n) <> "0"%char) /\
  (n = 0 -> print_nat n = ["0"%char]).
Proof.
  unfold print_nat.
  destruct (dec_loop_spec (S (N.size_nat n)) n []) as (ds & E & H).
  - pose proof (size_nat_bound n). rewrite Nat2N.inj_succ, N.pow_succ_r'. lia.
  - lia.
  - rewrite app_nil_r in E. rewrite E. exact H.
Qed.

Lemma print_nat_inj a b : print_nat a = print_nat b -> a = b.
Proof. intros E. rewrite <- (proj1 (print_nat_spec a)), E. apply print_nat_spec. Qed.

Lemma is_digit_not c d : is_digit c = true -> is_digit d = false -> c <> d.
Proof. intros H1 H2 ->; congruence. Qed.

Lemma print_long_inj a b : print_long a = print_long b -> a = b.
Proof.
  unfold print_long. destruct (Z.ltb_spec a 0), (Z.ltb_spec b 0); intros E.
  - injection E as E. apply print_nat_inj in E. lia.
  - exfalso. destruct (print_nat_spec (Z.to_N b)) as (_ & Hd & _).
    rewrite <- E in Hd. inversion Hd; subst. discriminate.
  - exfalso. destruct (print_nat_spec (Z.to_N a)) as (_ & Hd & _).
    rewrite E in Hd. inversion Hd; subst. discriminate.
  - apply print_nat_inj in E. lia.
Qed.
