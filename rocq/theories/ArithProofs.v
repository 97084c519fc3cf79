(** Specification and proofs for fixnum arithmetic. *)
From Coq Require Import ZArith NArith Bool Ascii String List Lia.
From Verif Require Import Base Outcome Arith.
Import ListNotations.
Local Open Scope Z_scope.

(** Sum, product, left-associated difference of integers. *)
Definition zsum (zs : list Z) : Z := fold_left Z.add zs 0.
Definition zprod (zs : list Z) : Z := fold_left Z.mul zs 1.
Definition zdiff (z : Z) (zs : list Z) : Z := fold_left Z.sub zs z.

(** [all_prefixes P f z0 zs]: P holds of the running results. *)
Fixpoint running (op : Z -> Z -> Z) (acc : Z) (zs : list Z) : list Z :=
  match zs with [] => [] | z :: r => op acc z :: running op (op acc z) r end.

(** Neighbouring elements are related. *)
Fixpoint chain (R : Z -> Z -> Prop) (zs : list Z) : Prop :=
  match zs with
  | a :: ((b :: _) as r) => R a b /\ chain R r
  | _ => True
  end.

Lemma clong_ok z : is_long z -> clong z = Val z.
Proof. intros H. unfold clong. apply is_longb_spec in H. now rewrite H. Qed.

Lemma clong_val z v : clong z = Val v -> v = z /\ is_long z.
Proof.
  unfold clong. destruct (is_longb z) eqn:E; intros H; inversion H; subst.
  split; auto. apply is_longb_spec; auto.
Qed.

Lemma num_loop_ok who (op : Z -> Z -> outcome Z) (f : Z -> Z -> Z) :
  (forall x y, is_long (f x y) -> op x y = Val (f x y)) ->
  forall zs x, Forall is_long (running f x zs) ->
  num_loop who op x (map OFix zs) = Val (OFix (fold_left f zs x)).
Proof.
  intros Hop. induction zs as [|z zs IH]; intros x H; simpl in *; auto.
  inversion H; subst. rewrite Hop by assumption. simpl. auto.
Qed.

(** The first non-number is reported once the sum of what precedes it is known
    to fit. *)
Lemma num_loop_err who (op : Z -> Z -> outcome Z) (f : Z -> Z -> Z) :
  (forall x y, is_long (f x y) -> op x y = Val (f x y)) ->
  forall zs x v rest, Forall is_long (running f x zs) -> as_num v = None ->
  num_loop who op x (map OFix zs ++ v :: rest) = Err (ArgErr who v).
Proof.
  intros Hop. induction zs as [|z zs IH]; intros x v rest H Hv; simpl in *.
  - now rewrite Hv.
  - inversion H; subst. rewrite Hop by assumption. simpl. auto.
Qed.

Lemma add_op x y : is_long (x + y) -> fx2_add x y = Val (x + y).
Proof. apply clong_ok. Qed.
Lemma sub_op x y : is_long (x - y) -> fx2_sub x y = Val (x - y).
Proof. apply clong_ok. Qed.
Lemma mul_op x y : is_long (x * y) -> fx2_mul x y = Val (x * y).
Proof. apply clong_ok. Qed.

Lemma p_add_ok zs : Forall is_long (running Z.add 0 zs) ->
  p_add (map OFix zs) = Val (OFix (zsum zs)).
Proof.
  unfold zsum. destruct zs as [|x [|y [|w rest]]]; intros H; simpl in *; auto.
  - inversion H as [|? ? Ha Hb]; subst. inversion Hb; subst. rewrite add_op by assumption. reflexivity.
  - inversion H as [|? ? Ha Hb]; subst. inversion Hb as [|? ? Hc Hd]; subst.
    inversion Hd; subst. destruct x; simpl in *; rewrite add_op by assumption; simpl;
    rewrite add_op by assumption; simpl; apply num_loop_ok; auto using add_op.
Qed.

Lemma p_sub_ok z zs : zs <> [] -> Forall is_long (running Z.sub z zs) ->
  p_sub (map OFix (z :: zs)) = Val (OFix (zdiff z zs)).
Proof.
  unfold zdiff. destruct zs as [|y [|w rest]]; intros Hne H; simpl in *; [congruence| |].
  - inversion H; subst. rewrite sub_op by assumption. reflexivity.
  - inversion H as [|? ? Ha Hb]; subst. inversion Hb; subst. rewrite sub_op by assumption; simpl.
    rewrite sub_op by assumption; simpl; apply num_loop_ok; auto using sub_op.
Qed.

Lemma p_neg_ok z : is_long (- z) -> p_sub [OFix z] = Val (OFix (- z)).
Proof. intros H. simpl. rewrite sub_op; auto. Qed.

Lemma p_mul_ok zs : Forall is_long (running Z.mul 1 zs) ->
  p_mul (map OFix zs) = Val (OFix (zprod zs)).
Proof.
  unfold zprod. destruct zs as [|x [|y [|w rest]]]; intros H; cbn [map p_mul as_num fold_left running] in *;
    rewrite ?Z.mul_1_l in *; auto.
  - inversion H as [|? ? Ha Hb]; subst. inversion Hb; subst. rewrite mul_op by assumption. reflexivity.
  - inversion H as [|? ? Ha Hb]; subst. inversion Hb as [|? ? Hc Hd]; subst.
    inversion Hd; subst. rewrite mul_op by assumption; cbn [obind].
    cbn [num_loop as_num]. rewrite mul_op by assumption; cbn [obind].
    apply num_loop_ok; auto using mul_op.
Qed.

Lemma p_div_ok x y : is_long x -> is_long y -> y <> 0 -> ~ (x = - 2 ^ 63 /\ y = -1) ->
  p_div [OFix x; OFix y] = Val (OFix (Z.quot x y)).
Proof.
  intros Hx Hy H0 Hm. unfold p_div. cbn [as_num]. destruct (Z.eqb_spec y 0); [contradiction|].
  unfold fx2_div. destruct (Z.eqb_spec y 0); [contradiction|].
  rewrite clong_ok; [reflexivity|].
  unfold is_long in *.
  assert (Q : Z.abs (Z.quot x y) <= Z.abs x).
  { rewrite <- Z.quot_abs by assumption. apply Z.quot_le_upper_bound; [lia|]. nia. }
  destruct (Z.eq_dec x (-2 ^ 63)) as [->|]; [|lia].
  split; [lia|]. destruct (Z.eq_dec y (-1)); [tauto|].
  destruct (Z.eq_dec y 1) as [->|]; [rewrite Z.quot_1_r; lia|].
  assert (Q2 : Z.abs (Z.quot (-2 ^ 63) y) <= 2 ^ 62).
  { rewrite <- Z.quot_abs by assumption. apply Z.quot_le_upper_bound; [lia|].
    change (Z.abs (-2 ^ 63)) with (2 * 2 ^ 62). nia. }
  lia.
Qed.

Lemma quot_fits x y : is_long x -> is_long y -> y <> 0 -> ~ (x = - 2 ^ 63 /\ y = -1) ->
  is_longb (Z.quot x y) = true.
Proof.
  intros Hx Hy H0 Hm. assert (E := p_div_ok x y Hx Hy H0 Hm). unfold p_div in E.
  cbn [as_num] in E. destruct (Z.eqb_spec y 0); [contradiction|]. unfold fx2_div, clong in E.
  destruct (Z.eqb_spec y 0); [contradiction|].
  destruct (is_longb (Z.quot x y)); [reflexivity|discriminate].
Qed.

Lemma fx_rem_ok x y : is_long x -> is_long y -> y <> 0 -> ~ (x = - 2 ^ 63 /\ y = -1) ->
  fx_rem x y = Val (Z.rem x y).
Proof.
  intros Hx Hy H0 Hm. unfold fx_rem. rewrite (quot_fits x y) by assumption.
  destruct (Z.eqb_spec y 0); [contradiction|reflexivity].
Qed.

Lemma p_rem_ok x y : is_long x -> is_long y -> y <> 0 -> ~ (x = - 2 ^ 63 /\ y = -1) ->
  p_rem (OFix x) (OFix y) = Val (OFix (Z.rem x y)).
Proof. intros. unfold p_rem. cbn [as_num]. rewrite fx_rem_ok by assumption. reflexivity. Qed.

(** The residue [modulo] is documented to return. *)
Definition modulo_spec (x y r : Z) : Prop :=
  (exists k, x - r = k * y) /\ Z.abs r < Z.abs y /\ (r = 0 \/ (r < 0 <-> y < 0)).

Lemma modulo_spec_unique x y r r' : y <> 0 -> modulo_spec x y r -> modulo_spec x y r' -> r = r'.
Proof.
  intros Hy ([k Hk] & Ha & Hs) ([k' Hk'] & Ha' & Hs').
  assert (r - r' = (k' - k) * y) by lia.
  assert (k' - k = 0) by nia. nia.
Qed.

Lemma modulo_spec_mod x y : y <> 0 -> modulo_spec x y (x mod y).
Proof.
  intros Hy. split; [exists (x / y); rewrite (Z.div_mod x y Hy) at 1; lia|].
  destruct (Z_lt_ge_dec y 0) as [H|H].
  - pose proof (Z.mod_neg_bound x y H). lia.
  - pose proof (Z.mod_pos_bound x y ltac:(lia)). lia.
Qed.

(** When [modulo] is right: the divisor does not divide, or the signs agree. *)
Lemma modulo_value x y : is_long x -> is_long y -> y <> 0 -> ~ (x = - 2 ^ 63 /\ y = -1) ->
  p_modulo (OFix x) (OFix y) =
  Val (OFix (if (xorb (x <? 0) (y <? 0) && (x mod y =? 0))%bool then y else x mod y)).
Proof.
  intros Hx Hy H0 Hm. unfold p_modulo. cbn [as_num]. unfold fx_modulo.
  rewrite fx_rem_ok by assumption. cbn [obind].
  pose proof (Z.rem_bound_abs x y H0) as RB.
  pose proof (Z.quot_rem' x y) as QR.
  assert (RS1 : 0 <= x -> 0 <= Z.rem x y) by (intros; apply Z.rem_nonneg; assumption).
  assert (RS2 : x <= 0 -> Z.rem x y <= 0) by (intros; apply Z.rem_nonpos; assumption).
  pose proof (modulo_spec_mod x y H0) as MS.
  assert (U : forall r, modulo_spec x y r -> x mod y = r)
    by (intros r Hr; apply (modulo_spec_unique x y); auto).
  destruct (xorb (x <? 0) (y <? 0)) eqn:X; cbn [andb].
  - destruct (Z.eqb_spec (x mod y) 0) as [E|E].
    + assert (R0 : Z.rem x y = 0).
      { apply Z.rem_divide; [assumption|]. apply Z.mod_divide; assumption. }
      rewrite R0, Z.add_0_l, clong_ok by assumption. reflexivity.
    + assert (RN : Z.rem x y <> 0).
      { intros R. apply E. apply Z.mod_divide; [assumption|]. apply Z.rem_divide; assumption. }
      assert (V : x mod y = Z.rem x y + y).
      { apply U. split; [exists (Z.quot x y - 1); lia|].
        destruct (Z.ltb_spec x 0), (Z.ltb_spec y 0); simpl in X; try discriminate; split; lia. }
      rewrite V. rewrite clong_ok; [reflexivity|].
      unfold is_long in *. destruct (Z.ltb_spec x 0), (Z.ltb_spec y 0); simpl in X; try discriminate; lia.
  - assert (V : x mod y = Z.rem x y).
    { apply U. split; [exists (Z.quot x y); lia|].
      destruct (Z.ltb_spec x 0), (Z.ltb_spec y 0); simpl in X; try discriminate; split; lia. }
    rewrite V. reflexivity.
Qed.

Lemma modulo_correct_iff x y : is_long x -> is_long y -> y <> 0 -> ~ (x = - 2 ^ 63 /\ y = -1) ->
  exists r, p_modulo (OFix x) (OFix y) = Val (OFix r) /\
  (modulo_spec x y r <-> ~ ((y | x) /\ (x < 0 <-> ~ y < 0))).
Proof.
  intros Hx Hy H0 Hm. eexists. split; [apply modulo_value; assumption|].
  pose proof (modulo_spec_mod x y H0) as MS.
  destruct (xorb (x <? 0) (y <? 0)) eqn:X; cbn [andb].
  - destruct (Z.eqb_spec (x mod y) 0) as [E|E].
    + split.
      * intros (_ & Ha & _). lia.
      * intros N. exfalso. apply N. split; [apply Z.mod_divide; assumption|].
        destruct (Z.ltb_spec x 0), (Z.ltb_spec y 0); simpl in X; try discriminate; lia.
    + split; [|intros; exact MS]. intros _ [D _]. apply E, Z.mod_divide; assumption.
  - split; [|intros; exact MS]. intros _ [_ S].
    destruct (Z.ltb_spec x 0), (Z.ltb_spec y 0); simpl in X; try discriminate; lia.
Qed.

(** ** Comparisons *)

Lemma cmp_loop_ok who cmp R : (forall a b, cmp a b = true <-> R a b) ->
  forall zs x, exists b, cmp_loop who cmp x (map OFix zs) = Val (obool b) /\
    (b = true <-> chain R (x :: zs)).
Proof.
  intros HR. induction zs as [|z zs IH]; intros x; simpl.
  - exists true. simpl. tauto.
  - destruct (cmp x z) eqn:E.
    + destruct (IH z) as (b & H1 & H2). exists b. split; auto.
      rewrite H2. apply HR in E. simpl. tauto.
    + exists false. split; auto. split; [discriminate|]. intros [H _].
      apply HR in H. congruence.
Qed.

Lemma p_cmp_ok who cmp R : (forall a b, cmp a b = true <-> R a b) ->
  forall x y zs, exists b, p_cmp who cmp (map OFix (x :: y :: zs)) = Val (obool b) /\
    (b = true <-> chain R (x :: y :: zs)).
Proof.
  intros HR x y zs. destruct zs as [|w zs].
  - exists (cmp x y). simpl. rewrite HR. split; auto. tauto.
  - exact (cmp_loop_ok who cmp R HR (y :: w :: zs) x).
Qed.

(** ** Soundness: any value returned is the exact one *)

Lemma as_num_inv o z : as_num o = Some z -> o = OFix z.
Proof. destruct o; simpl; congruence. Qed.

Lemma num_loop_sound who (op : Z -> Z -> outcome Z) (f : Z -> Z -> Z) :
  (forall x y v, op x y = Val v -> v = f x y) ->
  forall xs x v, num_loop who op x xs = Val v ->
  exists zs, xs = map OFix zs /\ v = OFix (fold_left f zs x).
Proof.
  intros Hop. induction xs as [|o xs IH]; intros x v H; simpl in H.
  - inversion H; subst. exists []. auto.
  - destruct (as_num o) as [y|] eqn:E; [|discriminate]. apply as_num_inv in E. subst o.
    destruct (op x y) as [w| |] eqn:W; simpl in H; try discriminate.
    apply Hop in W. subst w. destruct (IH _ _ H) as (zs & -> & ->).
    exists (y :: zs). auto.
Qed.

Lemma add_sound x y v : fx2_add x y = Val v -> v = x + y.
Proof. intros H. apply clong_val in H. tauto. Qed.
Lemma sub_sound x y v : fx2_sub x y = Val v -> v = x - y.
Proof. intros H. apply clong_val in H. tauto. Qed.
Lemma mul_sound x y v : fx2_mul x y = Val v -> v = x * y.
Proof. intros H. apply clong_val in H. tauto. Qed.

Ltac snum E := match goal with
  | H : context[as_num ?x] |- _ => destruct (as_num x) eqn:E; try discriminate;
      apply as_num_inv in E; subst x; cbn [as_num] in H
  end.

Lemma p_add_sound args v : p_add args = Val v ->
  exists zs, args = map OFix zs /\ v = OFix (zsum zs).
Proof.
  unfold zsum. destruct args as [|x [|y [|w rest]]]; intros H.
  - inversion H. exists []. auto.
  - cbn [p_add p_mul] in H. snum E. inversion H; subst. exists [z]. auto.
  - cbn [p_add] in H. snum E. snum E0. destruct (fx2_add z z0) eqn:A; simpl in H; inversion H; subst.
    apply add_sound in A. subst. exists [z; z0]. simpl. auto.
  - cbn [p_add] in H. snum E. snum E0. destruct (fx2_add z z0) eqn:A; try discriminate.
    apply add_sound in A. subst. cbn [obind] in H.
    destruct (num_loop_sound _ _ Z.add add_sound _ _ _ H) as (zs & Hz & Hv).
    exists (z :: z0 :: zs). simpl. rewrite Hz. auto.
Qed.

Lemma p_mul_sound args v : p_mul args = Val v ->
  exists zs, args = map OFix zs /\ v = OFix (zprod zs).
Proof.
  unfold zprod. destruct args as [|x [|y [|w rest]]]; intros H.
  - inversion H. exists []. auto.
  - cbn [p_add p_mul] in H. snum E. inversion H; subst. exists [z]. cbn [map fold_left]. now rewrite Z.mul_1_l.
  - cbn [p_mul] in H. snum E. snum E0. destruct (fx2_mul z z0) eqn:A; simpl in H; inversion H; subst.
    apply mul_sound in A. subst. exists [z; z0]. cbn [map fold_left]. now rewrite Z.mul_1_l.
  - cbn [p_mul] in H. snum E. snum E0. destruct (fx2_mul z z0) eqn:A; try discriminate.
    apply mul_sound in A. subst. cbn [obind] in H.
    destruct (num_loop_sound _ _ Z.mul mul_sound _ _ _ H) as (zs & Hz & Hv).
    exists (z :: z0 :: zs). cbn [map fold_left]. rewrite Z.mul_1_l, Hz. auto.
Qed.

Lemma p_sub_sound args v : p_sub args = Val v ->
  exists z zs, args = map OFix (z :: zs) /\
    v = OFix (match zs with [] => - z | _ => zdiff z zs end).
Proof.
  unfold zdiff. destruct args as [|x [|y [|w rest]]]; intros H.
  - discriminate.
  - cbn [p_sub] in H. snum E. destruct (fx2_sub 0 z) eqn:A; simpl in H; inversion H; subst.
    apply sub_sound in A. exists z, []. split; [reflexivity|]. f_equal. lia.
  - cbn [p_sub] in H. snum E. snum E0. destruct (fx2_sub z z0) eqn:A; simpl in H; inversion H; subst.
    apply sub_sound in A. subst. exists z, [z0]. simpl. auto.
  - cbn [p_sub] in H. snum E. snum E0. destruct (fx2_sub z z0) eqn:A; try discriminate.
    apply sub_sound in A. subst. cbn [obind] in H.
    destruct (num_loop_sound _ _ Z.sub sub_sound _ _ _ H) as (zs & Hz & Hv).
    exists z, (z0 :: zs). simpl. rewrite Hz. auto.
Qed.

(** ** Type errors *)

Lemma p_add_err zs v rest : Forall is_long (running Z.add 0 zs) -> as_num v = None ->
  p_add (map OFix zs ++ v :: rest) = Err (ArgErr "+" v).
Proof.
  intros H Hv. destruct zs as [|x [|y zs]]; cbn [map app] in *.
  - destruct rest as [|y [|]]; cbn [p_add]; rewrite Hv; auto.
  - destruct rest; cbn [p_add as_num]; rewrite Hv; auto.
  - cbn [running] in H. inversion H as [|? ? Ha Hb]; subst. inversion Hb; subst.
    rewrite Z.add_0_l in *.
    assert (N : exists w t, (map OFix zs ++ v :: rest)%list = w :: t)
      by (destruct zs; simpl; eauto).
    destruct N as (w & t & N). cbn [p_add]. rewrite N. cbn [as_num]. rewrite add_op by assumption.
    cbn [obind]. rewrite <- N. apply (num_loop_err _ _ Z.add); auto using add_op.
Qed.

Lemma p_sub_err zs v rest : Forall is_long (match zs with [] => [] | z :: r => running Z.sub z r end) ->
  as_num v = None ->
  p_sub (map OFix zs ++ v :: rest) = Err (ArgErr "-" v).
Proof.
  intros H Hv. destruct zs as [|x [|y zs]]; cbn [map app] in *.
  - destruct rest as [|y [|]]; cbn [p_sub]; rewrite Hv; auto.
  - destruct rest; cbn [p_sub as_num]; rewrite Hv; auto.
  - cbn [running] in H. inversion H as [|? ? Ha Hb]; subst.
    assert (N : exists w t, (map OFix zs ++ v :: rest)%list = w :: t)
      by (destruct zs; simpl; eauto).
    destruct N as (w & t & N). cbn [p_sub]. rewrite N. cbn [as_num]. rewrite sub_op by assumption.
    cbn [obind]. rewrite <- N. apply (num_loop_err _ _ Z.sub); auto using sub_op.
Qed.

Lemma cmp_loop_err who cmp R : (forall a b, cmp a b = true <-> R a b) ->
  forall zs x v rest, chain R (x :: zs) -> as_num v = None ->
  cmp_loop who cmp x (map OFix zs ++ v :: rest) = Err (ArgErr who v).
Proof.
  intros HR. induction zs as [|z zs IH]; intros x v rest H Hv; simpl.
  - now rewrite Hv.
  - cbn [chain] in H. destruct H as [H1 H2]. apply HR in H1. rewrite H1. auto.
Qed.

Lemma p_cmp_err who cmp R : (forall a b, cmp a b = true <-> R a b) ->
  forall zs v rest, chain R zs -> as_num v = None ->
  p_cmp who cmp (map OFix zs ++ v :: rest) = Err (ArgErr who v).
Proof.
  intros HR zs v rest H Hv. destruct zs as [|x zs]; cbn [map app].
  - destruct rest as [|y [|]]; cbn [p_cmp]; rewrite Hv; auto.
  - destruct zs as [|y zs]; cbn [map app].
    + destruct rest; cbn [p_cmp as_num]; [rewrite Hv; auto|]. cbn [cmp_loop]. rewrite Hv. auto.
    + assert (N : exists w t, (map OFix zs ++ v :: rest)%list = w :: t)
        by (destruct zs; simpl; eauto).
      destruct N as (w & t & N).
      pose proof (cmp_loop_err who cmp R HR (y :: zs) x v rest H Hv) as P.
      cbn [map app] in P. cbn [p_cmp]. rewrite N in *. cbn [as_num]. exact P.
Qed.

(** A comparison never looks past the first pair that fails. *)
Lemma p_cmp_false who cmp R : (forall a b, cmp a b = true <-> R a b) ->
  forall zs a b rest, chain R (zs ++ [a]) -> ~ R a b ->
  p_cmp who cmp (map OFix (zs ++ [a; b]) ++ rest) = Val OFalse.
Proof.
  intros HR zs a b rest H Hn.
  assert (F : cmp a b = false) by (destruct (cmp a b) eqn:E; auto; apply HR in E; contradiction).
  assert (L : forall zs x, chain R (x :: zs ++ [a]) ->
    cmp_loop who cmp x (map OFix (zs ++ [a; b]) ++ rest) = Val OFalse).
  { induction zs0 as [|z zs0 IH]; intros x Hc.
    - cbn [map app] in *. cbn [cmp_loop as_num]. cbn [chain] in Hc. destruct Hc as [H1 _].
      apply HR in H1. rewrite H1, F. reflexivity.
    - cbn [map app] in *. destruct Hc as [H1 H2]. apply HR in H1.
      cbn [cmp_loop as_num]. rewrite H1. apply IH. exact H2. }
  destruct zs as [|x zs]; cbn [map app].
  - destruct rest; cbn [p_cmp as_num cmp_loop]; rewrite F; auto.
  - specialize (L zs x H).
    assert (N : exists w w' t, (map OFix (zs ++ [a; b]) ++ rest)%list = w :: w' :: t).
    { destruct zs as [|z [|]]; simpl; eauto. }
    destruct N as (w & w' & t & N). rewrite N in *. cbn [p_cmp as_num]. exact L.
Qed.
