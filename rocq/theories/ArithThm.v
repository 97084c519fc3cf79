(** C12-C14: fixnum arithmetic, [modulo], comparisons. *)
From Coq Require Import ZArith NArith Bool Ascii String List Lia.
From Verif Require Import Base Outcome Arith ArithProofs.
Import ListNotations.
Local Open Scope string_scope.
Local Open Scope Z_scope.

(** ** C12: [+], [-], [*] *)

(** Every value returned by the operators is the mathematically exact one
    (so an overflowing computation never produces a wrong number in the model:
    it is undefined). *)
Theorem C12_add_exact : forall args v, p_add args = Val v ->
  exists zs, args = map OFix zs /\ v = OFix (zsum zs).
Proof. exact p_add_sound. Qed.

Theorem C12_mul_exact : forall args v, p_mul args = Val v ->
  exists zs, args = map OFix zs /\ v = OFix (zprod zs).
Proof. exact p_mul_sound. Qed.

Theorem C12_sub_exact : forall args v, p_sub args = Val v ->
  exists z zs, args = map OFix (z :: zs) /\
    v = OFix (match zs with [] => - z | _ => zdiff z zs end).
Proof. exact p_sub_sound. Qed.

(** And a value is returned for any number of fixnums whose running results fit
    in 64 bits. *)
Theorem C12_add_total : forall zs, Forall is_long (running Z.add 0 zs) ->
  p_add (map OFix zs) = Val (OFix (zsum zs)).
Proof. exact p_add_ok. Qed.

Theorem C12_mul_total : forall zs, Forall is_long (running Z.mul 1 zs) ->
  p_mul (map OFix zs) = Val (OFix (zprod zs)).
Proof. exact p_mul_ok. Qed.

Theorem C12_sub_total : forall z zs, zs <> [] -> Forall is_long (running Z.sub z zs) ->
  p_sub (map OFix (z :: zs)) = Val (OFix (zdiff z zs)).
Proof. exact p_sub_ok. Qed.

Theorem C12_neg_total : forall z, is_long (- z) -> p_sub [OFix z] = Val (OFix (- z)).
Proof. exact p_neg_ok. Qed.

(** The first argument that is not a number is the one reported. *)
Theorem C12_add_type_error : forall zs v rest,
  Forall is_long (running Z.add 0 zs) -> as_num v = None ->
  p_add (map OFix zs ++ v :: rest) = Err (ArgErr "+" v).
Proof. exact p_add_err. Qed.

Theorem C12_sub_type_error : forall zs v rest,
  Forall is_long (match zs with [] => [] | z :: r => running Z.sub z r end) ->
  as_num v = None ->
  p_sub (map OFix zs ++ v :: rest) = Err (ArgErr "-" v).
Proof. exact p_sub_err. Qed.

Lemma fx2_mul_cases a b : fx2_mul a b = Undef \/ fx2_mul a b = Val (a * b).
Proof. unfold fx2_mul, clong. destruct (is_longb (a * b)); auto. Qed.
(** Any argument that is not a number is an error of [*], whichever argument is blamed,
    unless the product overflows before it is reached. *)
Theorem C12_mul_type_error : forall args v, In v args -> as_num v = None ->
  p_mul args = Undef \/ exists x, In x args /\ p_mul args = Err (ArgErr "*" x).
Proof.
  assert (L : forall xs z v, In v xs -> as_num v = None ->
    num_loop "*" fx2_mul z xs = Undef \/ exists x, In x xs /\ num_loop "*" fx2_mul z xs = Err (ArgErr "*" x)).
  { induction xs as [|o xs IH]; intros z v I N; [destruct I|]. simpl. destruct (as_num o) as [y|] eqn:O.
    - destruct I as [->|I]; [congruence|]. destruct (fx2_mul_cases z y) as [M|M]; rewrite M; simpl; auto.
      destruct (IH (z * y) v I N) as [H|[x [J H]]]; auto. right. exists x. auto.
    - right. exists o. auto. }
  intros [|x [|y [|w r]]] v I N; [destruct I| | |].
  - destruct I as [<-|[]]. simpl. rewrite N. right. exists x. simpl; auto.
  - simpl. destruct (as_num x) as [a|] eqn:X; [|right; exists x; simpl; auto]. destruct (as_num y) as [b|] eqn:Y; [|right; exists y; simpl; auto].
    destruct I as [<-|[<-|[]]]; congruence.
  - cbn [p_mul]. destruct (as_num x) as [a|] eqn:X; [|right; exists y; simpl; auto]. destruct (as_num y) as [b|] eqn:Y; [|right; exists x; simpl; auto].
    destruct I as [<-|[<-|I]]; try congruence. destruct (fx2_mul_cases a b) as [M|M]; rewrite M; simpl obind; auto.
    destruct (L (w :: r) (a * b) v I N) as [H|[u [J H]]]; auto. right. exists u. split; [simpl in *; tauto|auto].
Qed.

(** [add1] and [sub1]. *)
Theorem C12_add1 : forall x, is_long (x + 1) -> p_add1 (OFix x) = Val (OFix (x + 1)).
Proof. intros x L. unfold p_add1. simpl. rewrite add_op by auto. reflexivity. Qed.
Theorem C12_sub1 : forall x, is_long (x - 1) -> p_sub1 (OFix x) = Val (OFix (x - 1)).
Proof. intros x L. unfold p_sub1. simpl. rewrite sub_op by auto. reflexivity. Qed.
Theorem C12_add1_type_error : forall v, as_num v = None -> p_add1 v = Err (ArgErr "add1" v) /\ p_sub1 v = Err (ArgErr "sub1" v).
Proof. intros v N. unfold p_add1, p_sub1. rewrite N. auto. Qed.
Theorem C12_remainder_type_error : forall x y,
  (as_num x = None -> p_rem x y = Err (ArgErr "remainder" x)) /\
  (as_num x <> None -> as_num y = None -> p_rem x y = Err (ArgErr "remainder" y)).
Proof. intros x y. unfold p_rem. split; intros N; [rewrite N; auto|]. intros M. rewrite M. destruct (as_num x); congruence. Qed.

(** Finding: a divisor that is zero, wherever it stands, and a divisor that is not a number
    are reported under other names: the first as an unbound variable, the second as an error
    of [-]. *)
Theorem C12_div_zero_anywhere_refuted : forall x,
  p_div [OFix 0] = Err (UnboundErr "division-0-error") /\
  (forall rest, p_div (OFix x :: OFix 0 :: rest) = Err (UnboundErr "division-0-error")) /\
  (forall y zs rest, y <> 0 -> Forall (fun z => z <> 0) zs -> Forall is_long (running Z.sub x (y :: zs)) ->
     p_div (OFix x :: OFix y :: map OFix zs ++ OFix 0 :: rest) = Err (UnboundErr "division-0-error")).
Proof.
  intros x. split; [reflexivity|]. split; [intros [|o r]; reflexivity|].
  assert (L : forall zs z rest, Forall (fun z => z <> 0) zs -> Forall is_long (running Z.sub z zs) ->
    div_loop z (map OFix zs ++ OFix 0 :: rest) = Err (UnboundErr "division-0-error")).
  { induction zs as [|o zs IH]; intros z rest F R; simpl; [reflexivity|]. inversion F as [|? ? N F']; subst. apply Z.eqb_neq in N. rewrite N.
    simpl in R. inversion R as [|? ? L1 R']; subst. rewrite sub_op by auto. simpl. auto. }
  intros y zs rest N F R. simpl in R. inversion R as [|? ? L1 R']; subst. apply Z.eqb_neq in N.
  assert (E : exists a q, (map OFix zs ++ OFix 0 :: rest)%list = a :: q) by (destruct zs; simpl; eauto). destruct E as (a & q & E).
  rewrite E. cbn [p_div as_num]. rewrite N. rewrite sub_op by auto. cbn [obind]. rewrite <- E. auto.
Qed.
Theorem C12_div_name_refuted : forall x y, as_num y = None -> p_div [OFix x; y] = Err (ArgErr "-" y) /\ p_div [y; OFix x] = Err (ArgErr "-" y).
Proof. intros x y N. simpl. rewrite N. auto. Qed.

(** Two-argument [/] is truncated division and [remainder] its remainder. *)
Theorem C12_div_partial : forall x y,
  is_long x -> is_long y -> y <> 0 -> ~ (x = - 2 ^ 63 /\ y = -1) ->
  p_div [OFix x; OFix y] = Val (OFix (Z.quot x y)).
Proof. exact p_div_ok. Qed.

Theorem C12_remainder : forall x y,
  is_long x -> is_long y -> y <> 0 -> ~ (x = - 2 ^ 63 /\ y = -1) ->
  p_rem (OFix x) (OFix y) = Val (OFix (Z.rem x y)).
Proof. exact p_rem_ok. Qed.

(** Finding: [/] of three or more arguments subtracts: (/ 24 2 3) is 19. *)
Theorem C12_div_variadic_refuted : exists x y z,
  p_div [OFix x; OFix y; OFix z] = Val (OFix (x - y - z)) /\
  x - y - z <> Z.quot (Z.quot x y) z.
Proof. exists 24, 2, 3. split; [reflexivity|]. vm_compute. discriminate. Qed.

(** Finding: division by zero calls an unbound name instead of the local
    [divide-0-error]. *)
Theorem C12_div_zero_refuted : forall x,
  p_div [OFix x; OFix 0] = Err (UnboundErr "division-0-error").
Proof. reflexivity. Qed.

(** Finding: [*] with three or more arguments blames the wrong argument. *)
Theorem C12_mul_type_error_refuted : exists a b c,
  as_num a <> None /\ as_num b = None /\ p_mul [a; b; c] = Err (ArgErr "*" a).
Proof. exists (OFix 2), OTrue, (OFix 3). repeat split; discriminate. Qed.

(** Finding: [remainder] and [modulo] by zero are undefined behaviour. *)
Theorem C12_remainder_zero_refuted : forall x,
  p_rem (OFix x) (OFix 0) = Undef /\ p_modulo (OFix x) (OFix 0) = Undef.
Proof. split; reflexivity. Qed.

Example C12_add_ex : Forall is_long (running Z.add 0 [2^62; -5; 2^62; -3]) /\
  p_add (map OFix [2^62; -5; 2^62; -3]) = Val (OFix (2^63 - 8)).
Proof. split; [repeat constructor; vm_compute; discriminate|reflexivity]. Qed.
Example C12_mul_ex : p_mul (map OFix [3; -7; 2; 5]) = Val (OFix (-210)).
Proof. reflexivity. Qed.
Example C12_sub_ex : p_sub (map OFix [10; 3; 4]) = Val (OFix 3) /\ p_sub [OFix 4] = Val (OFix (-4)).
Proof. split; reflexivity. Qed.
Example C12_overflow_ex : p_add [OFix (2^63 - 1); OFix 1] = Undef.
Proof. reflexivity. Qed.
Example C12_err_ex : p_add (map OFix [1; 2; 3] ++ OTrue :: [OFix 4]) = Err (ArgErr "+" OTrue).
Proof. reflexivity. Qed.
Example C12_div_ex : p_div [OFix (-7); OFix 2] = Val (OFix (-3)) /\
  p_rem (OFix (-7)) (OFix 2) = Val (OFix (-1)).
Proof. split; reflexivity. Qed.

Example C12_reject_ex : p_mul [OFix 2; OTrue; OFix 3; OFix 4] = Err (ArgErr "*" (OFix 2)) /\ p_mul [OFix 2; OFix 3; ONull] = Err (ArgErr "*" ONull) /\
  p_add1 (OFix 41) = Val (OFix 42) /\ p_sub1 ONull = Err (ArgErr "sub1" ONull) /\ p_rem (OFix 3) OTrue = Err (ArgErr "remainder" OTrue) /\
  p_div [OFix 9; OFix 2; OFix 3; OFix 0; OTrue] = Err (UnboundErr "division-0-error").
Proof. repeat split. Qed.

(** ** C13: [modulo] *)

(** The full property, [forall x y, modulo_spec x y (modulo x y)], is false:
    it fails exactly when the divisor divides the dividend and exactly one of
    the two is negative. *)
Theorem C13_modulo_partial : forall x y,
  is_long x -> is_long y -> y <> 0 -> ~ (x = - 2 ^ 63 /\ y = -1) ->
  exists r, p_modulo (OFix x) (OFix y) = Val (OFix r) /\
  (modulo_spec x y r <-> ~ ((y | x) /\ (x < 0 <-> ~ y < 0))).
Proof. exact modulo_correct_iff. Qed.

(** The specification determines the result. *)
Theorem C13_modulo_unique : forall x y r r', y <> 0 ->
  modulo_spec x y r -> modulo_spec x y r' -> r = r'.
Proof. exact modulo_spec_unique. Qed.

Theorem C13_modulo_refuted : exists x y r,
  p_modulo (OFix x) (OFix y) = Val (OFix r) /\ y <> 0 /\ ~ modulo_spec x y r.
Proof.
  exists (-4), 2, 2. split; [reflexivity|]. split; [discriminate|].
  intros (_ & H & _). vm_compute in H. discriminate.
Qed.

Theorem C13_modulo_type_error : forall x y,
  (as_num x = None -> p_modulo x y = Err (ArgErr "modulo" x)) /\
  (as_num x <> None -> as_num y = None -> p_modulo x y = Err (ArgErr "modulo" y)).
Proof. intros x y. unfold p_modulo. split; intros N; [rewrite N; auto|]. intros M. rewrite M. destruct (as_num x); congruence. Qed.

Example C13_ex : p_modulo (OFix (-7)) (OFix 3) = Val (OFix 2) /\
  p_modulo (OFix 7) (OFix (-3)) = Val (OFix (-2)) /\ p_modulo (OFix (-7)) (OFix (-3)) = Val (OFix (-1)).
Proof. repeat split. Qed.

(** ** C14: comparison chains *)

Theorem C14_eq_chain : forall x y zs, exists b,
  p_eq (map OFix (x :: y :: zs)) = Val (obool b) /\ (b = true <-> chain Z.eq (x :: y :: zs)).
Proof. apply p_cmp_ok. intros. apply Z.eqb_eq. Qed.
Theorem C14_lt_chain : forall x y zs, exists b,
  p_lt (map OFix (x :: y :: zs)) = Val (obool b) /\ (b = true <-> chain Z.lt (x :: y :: zs)).
Proof. apply p_cmp_ok. intros. apply Z.ltb_lt. Qed.
Theorem C14_gt_chain : forall x y zs, exists b,
  p_gt (map OFix (x :: y :: zs)) = Val (obool b) /\ (b = true <-> chain Z.gt (x :: y :: zs)).
Proof. apply p_cmp_ok. intros. unfold fx2_gt. rewrite Z.gtb_lt. lia. Qed.
Theorem C14_le_chain : forall x y zs, exists b,
  p_le (map OFix (x :: y :: zs)) = Val (obool b) /\ (b = true <-> chain Z.le (x :: y :: zs)).
Proof. apply p_cmp_ok. intros. apply Z.leb_le. Qed.
Theorem C14_ge_chain : forall x y zs, exists b,
  p_ge (map OFix (x :: y :: zs)) = Val (obool b) /\ (b = true <-> chain Z.ge (x :: y :: zs)).
Proof. apply p_cmp_ok. intros. unfold fx2_ge. rewrite Z.geb_le. lia. Qed.

(** The first non-number is reported when everything before it is in order ... *)
Theorem C14_lt_type_error : forall zs v rest, chain Z.lt zs -> as_num v = None ->
  p_lt (map OFix zs ++ v :: rest) = Err (ArgErr "<" v).
Proof. apply p_cmp_err. intros. apply Z.ltb_lt. Qed.
Theorem C14_eq_type_error : forall zs v rest, chain Z.eq zs -> as_num v = None ->
  p_eq (map OFix zs ++ v :: rest) = Err (ArgErr "=" v).
Proof. apply p_cmp_err. intros. apply Z.eqb_eq. Qed.

Theorem C14_gt_type_error : forall zs v rest, chain Z.gt zs -> as_num v = None ->
  p_gt (map OFix zs ++ v :: rest) = Err (ArgErr ">" v).
Proof. apply p_cmp_err. intros. unfold fx2_gt. rewrite Z.gtb_lt. lia. Qed.
Theorem C14_le_type_error : forall zs v rest, chain Z.le zs -> as_num v = None ->
  p_le (map OFix zs ++ v :: rest) = Err (ArgErr "<=" v).
Proof. apply p_cmp_err. intros. apply Z.leb_le. Qed.
Theorem C14_ge_type_error : forall zs v rest, chain Z.ge zs -> as_num v = None ->
  p_ge (map OFix zs ++ v :: rest) = Err (ArgErr ">=" v).
Proof. apply p_cmp_err. intros. unfold fx2_ge. rewrite Z.geb_le. lia. Qed.

(** ... and arguments after the first failing pair are not looked at. *)
Theorem C14_lt_short_circuit : forall zs a b rest, chain Z.lt (zs ++ [a]) -> ~ a < b ->
  p_lt (map OFix (zs ++ [a; b]) ++ rest) = Val OFalse.
Proof. apply p_cmp_false. intros. apply Z.ltb_lt. Qed.

Theorem C14_gt_short_circuit : forall zs a b rest, chain Z.gt (zs ++ [a]) -> ~ a > b ->
  p_gt (map OFix (zs ++ [a; b]) ++ rest) = Val OFalse.
Proof. apply p_cmp_false. intros. unfold fx2_gt. rewrite Z.gtb_lt. lia. Qed.
Theorem C14_le_short_circuit : forall zs a b rest, chain Z.le (zs ++ [a]) -> ~ a <= b ->
  p_le (map OFix (zs ++ [a; b]) ++ rest) = Val OFalse.
Proof. apply p_cmp_false. intros. apply Z.leb_le. Qed.
Theorem C14_ge_short_circuit : forall zs a b rest, chain Z.ge (zs ++ [a]) -> ~ a >= b ->
  p_ge (map OFix (zs ++ [a; b]) ++ rest) = Val OFalse.
Proof. apply p_cmp_false. intros. unfold fx2_ge. rewrite Z.geb_le. lia. Qed.
Theorem C14_eq_short_circuit : forall zs a b rest, chain Z.eq (zs ++ [a]) -> a <> b ->
  p_eq (map OFix (zs ++ [a; b]) ++ rest) = Val OFalse.
Proof. apply p_cmp_false. intros. apply Z.eqb_eq. Qed.

(** Finding: with one argument the comparisons return the argument, not #t. *)
Theorem C14_one_argument_refuted : forall x, p_eq [OFix x] = Val (OFix x).
Proof. reflexivity. Qed.

Example C14_ex : p_lt (map OFix [1; 2; 5; 9]) = Val OTrue /\ p_lt (map OFix [1; 2; 2]) = Val OFalse /\
  p_ge (map OFix [3; 3; 1]) = Val OTrue /\ p_lt [OFix 1; OTrue] = Err (ArgErr "<" OTrue) /\
  p_ge [OFix 3; OFix 3; OTrue] = Err (ArgErr ">=" OTrue) /\ p_gt [OFix 3; OFix 3; OTrue] = Val OFalse.
Proof. repeat split. Qed.

Print Assumptions C12_add_exact.
Print Assumptions C12_mul_exact.
Print Assumptions C12_sub_exact.
Print Assumptions C12_div_partial.
Print Assumptions C12_remainder.
Print Assumptions C13_modulo_partial.
Print Assumptions C14_lt_chain.
Print Assumptions C14_lt_short_circuit.
Print Assumptions C12_mul_type_error.
Print Assumptions C12_add1.
Print Assumptions C12_sub1.
Print Assumptions C12_add1_type_error.
Print Assumptions C12_remainder_type_error.
Print Assumptions C12_div_zero_anywhere_refuted.
Print Assumptions C12_div_name_refuted.
Print Assumptions C13_modulo_type_error.
Print Assumptions C14_gt_type_error.
Print Assumptions C14_le_type_error.
Print Assumptions C14_ge_type_error.
Print Assumptions C14_gt_short_circuit.
Print Assumptions C14_le_short_circuit.
Print Assumptions C14_ge_short_circuit.
Print Assumptions C14_eq_short_circuit.
