(** Model of fixnum arithmetic: src/core/c/number.c and the arithmetic section
    of src/core/s/prelude.min (lines 520-722). *)
From Coq Require Import ZArith NArith Bool Ascii String List Lia.
From Verif Require Import Base Outcome.
Import ListNotations.
Local Open Scope string_scope.
Local Open Scope Z_scope.

(** Result of a [long] computation: overflow is undefined behaviour in C. *)
Definition clong (z : Z) : outcome Z := if is_longb z then Val z else Undef.

(** number.c:27-30, 32-35, 37-40. *)
Definition fx2_add (x y : Z) : outcome Z := clong (x + y).
Definition fx2_sub (x y : Z) : outcome Z := clong (x - y).
Definition fx2_mul (x y : Z) : outcome Z := clong (x * y).

(** number.c:42-45: C division truncates; division by zero and
    [LONG_MIN / -1] are undefined. *)
Definition fx2_div (x y : Z) : outcome Z :=
  if y =? 0 then Undef else clong (Z.quot x y).

(** number.c:47-50: [%] is undefined exactly when [/] is. *)
Definition fx_rem (x y : Z) : outcome Z :=
  if y =? 0 then Undef else if is_longb (Z.quot x y) then Val (Z.rem x y) else Undef.

(** number.c:52-60. *)
Definition fx_modulo (x y : Z) : outcome Z :=
  obind (fx_rem x y) (fun z =>
  if xorb (x <? 0) (y <? 0) then clong (z + y) else Val z).

(** number.c:62-85. *)
Definition fx2_eq (x y : Z) : bool := x =? y.
Definition fx2_gt (x y : Z) : bool := x >? y.
Definition fx2_lt (x y : Z) : bool := x <? y.
Definition fx2_ge (x y : Z) : bool := x >=? y.
Definition fx2_le (x y : Z) : bool := x <=? y.

(** Results are fixnum objects ([Mfixnum], number.c:7-12). *)
Definition fixres (o : outcome Z) : outcome obj := obind o (fun z => Val (OFix z)).

(** [number?] is [fixnum?] (prelude.min:521-522). *)
Definition as_num (o : obj) : option Z := match o with OFix z => Some z | _ => None end.

(** The [loop] of the variadic operators (prelude.min:601-607, 626-632,
    652-658). *)
Fixpoint num_loop (who : string) (op : Z -> Z -> outcome Z) (x : Z) (xs : list obj)
  : outcome obj :=
  match xs with
  | [] => Val (OFix x)
  | o :: r =>
      match as_num o with
      | Some y => obind (op x y) (fun z => num_loop who op z r)
      | None => Err (ArgErr who o)
      end
  end.

(** [+] (prelude.min:586-610). *)
Definition p_add (args : list obj) : outcome obj :=
  match args with
  | [] => Val (OFix 0)
  | [x] => match as_num x with Some _ => Val x | None => Err (ArgErr "+" x) end
  | [x; y] =>
      match as_num x with
      | Some a => match as_num y with
                  | Some b => fixres (fx2_add a b)
                  | None => Err (ArgErr "+" y)
                  end
      | None => Err (ArgErr "+" x)
      end
  | x :: y :: rest =>
      match as_num x with
      | Some a => match as_num y with
                  | Some b => obind (fx2_add a b) (fun z => num_loop "+" fx2_add z rest)
                  | None => Err (ArgErr "+" y)
                  end
      | None => Err (ArgErr "+" x)
      end
  end.

(** [-] (prelude.min:612-635); [None] is the arity error of the case-lambda. *)
Definition p_sub (args : list obj) : outcome obj :=
  match args with
  | [] => Err (OtherErr "arity mismatch")
  | [x] => match as_num x with Some a => fixres (fx2_sub 0 a) | None => Err (ArgErr "-" x) end
  | [x; y] =>
      match as_num x with
      | Some a => match as_num y with
                  | Some b => fixres (fx2_sub a b)
                  | None => Err (ArgErr "-" y)
                  end
      | None => Err (ArgErr "-" x)
      end
  | x :: y :: rest =>
      match as_num x with
      | Some a => match as_num y with
                  | Some b => obind (fx2_sub a b) (fun z => num_loop "-" fx2_sub z rest)
                  | None => Err (ArgErr "-" y)
                  end
      | None => Err (ArgErr "-" x)
      end
  end.

(** [*] (prelude.min:637-661); the two error branches of the last clause report
    each other's argument (lines 660-661). *)
Definition p_mul (args : list obj) : outcome obj :=
  match args with
  | [] => Val (OFix 1)
  | [x] => match as_num x with Some _ => Val x | None => Err (ArgErr "*" x) end
  | [x; y] =>
      match as_num x with
      | Some a => match as_num y with
                  | Some b => fixres (fx2_mul a b)
                  | None => Err (ArgErr "*" y)
                  end
      | None => Err (ArgErr "*" x)
      end
  | x :: y :: rest =>
      match as_num x with
      | Some a => match as_num y with
                  | Some b => obind (fx2_mul a b) (fun z => num_loop "*" fx2_mul z rest)
                  | None => Err (ArgErr "*" x)
                  end
      | None => Err (ArgErr "*" y)
      end
  end.

(** The [loop] of [/] (prelude.min:683-691): it subtracts. *)
Fixpoint div_loop (x : Z) (xs : list obj) : outcome obj :=
  match xs with
  | [] => Val (OFix x)
  | o :: r =>
      match as_num o with
      | Some y => if y =? 0 then Err (UnboundErr "division-0-error")
                  else obind (fx2_sub x y) (fun z => div_loop z r)
      | None => Err (ArgErr "-" o)
      end
  end.

(** [/] (prelude.min:663-694). [division-0-error] is not bound anywhere (the
    let-bound name is [divide-0-error], line 581), so calling it is an
    unbound-variable error. *)
Definition p_div (args : list obj) : outcome obj :=
  match args with
  | [] => Err (OtherErr "arity mismatch")
  | [x] => match as_num x with
           | Some a => if a =? 0 then Err (UnboundErr "division-0-error") else fixres (fx2_div 1 a)
           | None => Err (ArgErr "/" x)
           end
  | [x; y] =>
      match as_num x with
      | Some a => match as_num y with
                  | Some b => if b =? 0 then Err (UnboundErr "division-0-error")
                              else fixres (fx2_div a b)
                  | None => Err (ArgErr "-" y)
                  end
      | None => Err (ArgErr "-" x)
      end
  | x :: y :: rest =>
      match as_num x with
      | Some a => match as_num y with
                  | Some b => if b =? 0 then Err (UnboundErr "division-0-error")
                              else obind (fx2_sub a b) (fun z => div_loop z rest)
                  | None => Err (ArgErr "-" y)
                  end
      | None => Err (ArgErr "-" x)
      end
  end.

(** [remainder] and [modulo] (prelude.min:708-722). *)
Definition p_rem (x y : obj) : outcome obj :=
  match as_num x with
  | Some a => match as_num y with
              | Some b => fixres (fx_rem a b)
              | None => Err (ArgErr "remainder" y)
              end
  | None => Err (ArgErr "remainder" x)
  end.
Definition p_modulo (x y : obj) : outcome obj :=
  match as_num x with
  | Some a => match as_num y with
              | Some b => fixres (fx_modulo a b)
              | None => Err (ArgErr "modulo" y)
              end
  | None => Err (ArgErr "modulo" x)
  end.

Definition obool (b : bool) : obj := if b then OTrue else OFalse.

(** The comparison [loop] (prelude.min:543-552). *)
Fixpoint cmp_loop (who : string) (cmp : Z -> Z -> bool) (x : Z) (xs : list obj) : outcome obj :=
  match xs with
  | [] => Val OTrue
  | o :: r =>
      match as_num o with
      | Some y => if cmp x y then cmp_loop who cmp y r else Val OFalse
      | None => Err (ArgErr who o)
      end
  end.

(** [go] (prelude.min:528-553): the one-argument clause returns its argument. *)
Definition p_cmp (who : string) (cmp : Z -> Z -> bool) (args : list obj) : outcome obj :=
  match args with
  | [] => Err (OtherErr "arity mismatch")
  | [x] => match as_num x with Some _ => Val x | None => Err (ArgErr who x) end
  | [x; y] =>
      match as_num x with
      | Some a => match as_num y with
                  | Some b => Val (obool (cmp a b))
                  | None => Err (ArgErr who y)
                  end
      | None => Err (ArgErr who x)
      end
  | x :: rest =>
      match as_num x with
      | Some a => cmp_loop who cmp a rest
      | None => Err (ArgErr who x)
      end
  end.

(** prelude.min:554-558. *)
Definition p_eq := p_cmp "=" fx2_eq.
Definition p_gt := p_cmp ">" fx2_gt.
Definition p_lt := p_cmp "<" fx2_lt.
Definition p_ge := p_cmp ">=" fx2_ge.
Definition p_le := p_cmp "<=" fx2_le.

(** [add1], [sub1] (prelude.min:696-706). *)
Definition p_add1 (x : obj) : outcome obj :=
  match as_num x with Some a => fixres (fx2_add a 1) | None => Err (ArgErr "add1" x) end.
Definition p_sub1 (x : obj) : outcome obj :=
  match as_num x with Some a => fixres (fx2_sub a 1) | None => Err (ArgErr "sub1" x) end.
