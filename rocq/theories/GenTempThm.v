(** C71: the temporary names that the library's macros put into the code they write. *)
From Coq Require Import ZArith NArith Bool Ascii String List Arith Lia.
From Verif Require Import Base Decimal Reader LibRead GenTemp.
Import ListNotations.
Local Open Scope list_scope.
Local Open Scope nat_scope.

(** The name ends in a decimal digit. *)
Definition ends_in_digit (n : list byte) : Prop := exists p c, n = p ++ [c] /\ In c (s2b "0123456789").

Lemma digit_in c : is_digit c = true -> In c (s2b "0123456789").
Proof. destruct c as [[] [] [] [] [] [] [] []]; intros H; vm_compute in H; try discriminate H; vm_compute; tauto. Qed.
Lemma print_pos_digits n : Forall (fun c => is_digit c = true) (print_long (Z.of_N n)).
Proof. unfold print_long. destruct (Z.ltb_spec (Z.of_N n) 0); [lia|]. apply print_nat_spec. Qed.

(** What the calls answer: the i-th one the symbol of its name and the numeral. *)
Lemma gen_temps_nth names : forall c i n, nth_error names i = Some n ->
  nth_error (fst (gen_temps names c)) i = Some (OSyntax (OSym (n ++ print_long (Z.of_N (c + N.of_nat i + 1)))) OFalse).
Proof.
  induction names as [|m r IH]; intros c [|i] n H; try discriminate H; cbn [gen_temps gen_temp].
  - injection H as ->. replace (c + N.of_nat 0 + 1)%N with (c + 1)%N by lia. destruct (gen_temps r (c + 1)%N). reflexivity.
  - specialize (IH (c + 1)%N i n H). replace (c + N.of_nat (S i) + 1)%N with (c + 1 + N.of_nat i + 1)%N by lia. destruct (gen_temps r (c + 1)%N). exact IH.
Qed.
Lemma split_digits (a b d e : list byte) : ~ ends_in_digit a -> ~ ends_in_digit b ->
  Forall (fun c => is_digit c = true) d -> Forall (fun c => is_digit c = true) e -> a ++ d = b ++ e -> a = b /\ d = e.
Proof.
  intros NA NB. revert e. induction d as [|x d IH] using rev_ind; intros e D E H.
  - destruct e as [|y e _] using rev_ind; [rewrite !app_nil_r in H; auto|]. exfalso. apply NA. rewrite app_nil_r in H.
    exists (b ++ e), y. rewrite <- app_assoc. split; auto. apply Forall_app in E as [_ E]. inversion E. apply digit_in. auto.
  - destruct e as [|y e _] using rev_ind.
    + exfalso. apply NB. rewrite app_nil_r in H. exists (a ++ d), x. rewrite <- app_assoc. split; auto. apply Forall_app in D as [_ D]. inversion D. apply digit_in. auto.
    + rewrite !app_assoc in H. apply app_inj_tail in H as [H ->]. apply Forall_app in D as [D _]. apply Forall_app in E as [E _].
      destruct (IH e D E H). split; congruence.
Qed.

(** All the temporaries made with names that do not end in a digit are different, whatever
    calls come before, between and after. *)
Theorem C71_distinct_partial names c i j n m x y : i <> j ->
  nth_error names i = Some n -> nth_error names j = Some m -> ~ ends_in_digit n -> ~ ends_in_digit m ->
  nth_error (fst (gen_temps names c)) i = Some x -> nth_error (fst (gen_temps names c)) j = Some y -> x <> y.
Proof.
  intros D N M EN EM X Y E. rewrite (gen_temps_nth _ _ _ _ N) in X. rewrite (gen_temps_nth _ _ _ _ M) in Y.
  injection X as <-. injection Y as <-. injection E as E. apply split_digits in E as [_ E]; auto using print_pos_digits.
  apply print_long_inj in E. lia.
Qed.
(** So are those made with the same name. *)
Theorem C71_same_name names c i j n x y : i <> j -> nth_error names i = Some n -> nth_error names j = Some n ->
  nth_error (fst (gen_temps names c)) i = Some x -> nth_error (fst (gen_temps names c)) j = Some y -> x <> y.
Proof.
  intros D N M X Y E. rewrite (gen_temps_nth _ _ _ _ N) in X. rewrite (gen_temps_nth _ _ _ _ M) in Y.
  injection X as <-. injection Y as <-. injection E as E. apply app_inv_head in E. apply print_long_inj in E. lia.
Qed.
(** Every call answers with an identifier whose name starts with the given name. *)
Theorem C71_identifier names c i n : nth_error names i = Some n ->
  exists q, nth_error (fst (gen_temps names c)) i = Some (OSyntax (OSym (n ++ q)) OFalse) /\ q <> [] /\ forall b, In b q -> In b (s2b "0123456789").
Proof.
  intros N. eexists. split; [apply gen_temps_nth; exact N|]. split.
  - unfold print_long. destruct (Z.ltb_spec (Z.of_N (c + N.of_nat i + 1)) 0); [discriminate|]. apply print_nat_spec.
  - intros b B. apply digit_in. pose proof (print_pos_digits (c + N.of_nat i + 1)) as F. rewrite Forall_forall in F. auto.
Qed.

(** ** Findings
    A name that ends in a digit can give a temporary that was given before: x1 with the
    first number and x with the eleventh. *)
Theorem C71_distinct_refuted : exists names i j x, i <> j /\
  nth_error (fst (gen_temps names counter0)) i = Some x /\ nth_error (fst (gen_temps names counter0)) j = Some x.
Proof.
  exists (s2b "x1" :: repeat (s2b "x") 10), 0, 10, (OSyntax (OSym (s2b "x11")) OFalse). split; [discriminate|].
  split; vm_compute; reflexivity.
Qed.
(** A temporary is a symbol that a program can write: sc3 is the third temporary of a
    syntax-case form, and it is what the reader makes of the text sc3. *)
Theorem C71_program_name_refuted : exists names i x o, nth_error (fst (gen_temps names counter0)) i = Some x /\
  lreads (s2b "sc3") o [] /\ strip o = strip x.
Proof.
  exists (repeat (s2b "sc") 3), 2. do 2 eexists. split; [vm_compute; reflexivity|]. split; [exists 20; vm_compute; reflexivity|reflexivity].
Qed.

(** The names of the library's own macros. *)
Example C71_distinct_met : ~ ends_in_digit (s2b "sc") /\ ~ ends_in_digit (s2b "pv") /\
  map strip (fst (gen_temps [s2b "sc"; s2b "pv"; s2b "sc"] counter0)) = [OSym (s2b "sc1"); OSym (s2b "pv2"); OSym (s2b "sc3")].
Proof.
  assert (L : forall n c, last n "a"%char = c -> ~ In c (s2b "0123456789") -> ~ ends_in_digit n).
  { intros n c <- N (p & d & -> & I). rewrite last_last in N. auto. }
  split; [|split]; [apply (L _ "c"%char)|apply (L _ "v"%char)|vm_compute; reflexivity]; try reflexivity;
    vm_compute; intuition discriminate.
Qed.
Print Assumptions C71_distinct_partial.
Print Assumptions C71_same_name.
Print Assumptions C71_identifier.
Print Assumptions C71_distinct_refuted.
Print Assumptions C71_program_name_refuted.
