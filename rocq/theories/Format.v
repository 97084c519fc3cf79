(** Formatted output: src/core/s/prelude.min:2172-2259. *)
From Coq Require Import ZArith NArith Bool Ascii String List Arith.
From Verif Require Import Base Hashtable Port.
Import ListNotations.
Local Open Scope list_scope.

(** Errors: ill-formed string, unknown directive, wrong number of arguments, a
    reference to an unbound variable, not an output port, car of a value that is
    no pair, index outside of the string.  [FUndef]: undefined behaviour of an
    operation on a closed port. *)
Inductive ferr : Type := FIll | FUnknown (c : byte) | FCount (want have : nat) | FUnbound (id : string) | FPort | FCar | FRange.
Inductive fres (A : Type) : Type := FOk (a : A) | FErr (e : ferr) | FUndef | FFuel.
Arguments FOk {A} _. Arguments FErr {A} _. Arguments FUndef {A}. Arguments FFuel {A}.

Definition is_ch (c : byte) (s : string) : bool := match s with String d _ => Ascii.eqb c d | _ => false end.

(** fmt-args, prelude.min:2173-2195, for a format string of which [s] are the
    characters before the first NUL (string-length is strlen, minim.h:213-220).
    [args] is a list of #f, of which only the length is kept.  The call
    [(loop (+ n 2) xs)] of 2192 refers to the variable [xs], which is not bound
    by the prelude. *)
Fixpoint fmt_args (f : nat) (s : list byte) (n args : nat) : fres nat :=
  match f with
  | O => FFuel
  | S f =>
      if length s <=? n then FOk args
      else match nth_error s n with
      | None => FErr FRange
      | Some c =>
          if is_ch c "~" then
            if length s <=? n + 1 then FErr FIll
            else match nth_error s (n + 1) with
            | None => FErr FRange
            | Some nc =>
                if is_ch nc "a" || is_ch nc "A" then fmt_args f s (n + 2) (S args)
                else if is_ch nc "s" || is_ch nc "S" then fmt_args f s (n + 2) (S args)
                else if is_ch nc "%" then fmt_args f s (n + 2) args
                else if is_ch nc "~" then FErr (FUnbound "xs")
                else FErr (FUnknown nc)
            end
          else fmt_args f s (n + 1) args
      end
  end.
Definition fmt_fuel (s : list byte) : nat := S (length s).

(** check-format!, prelude.min:2197-2207.  All predicates are #f. *)
Definition check_format (s : list byte) (have : nat) : fres unit :=
  match fmt_args (fmt_fuel s) s 0 0 with
  | FOk want => if Nat.eqb want have then FOk tt else FErr (FCount want have)
  | FErr e => FErr e | FUndef => FUndef | FFuel => FFuel
  end.

Section Format.
Variable A : Type.
(** What display and write print of a value.  (A record writer that raises an error
    or has other effects is not modelled.) *)
Variables disp wr : A -> list byte.

(** do-format, prelude.min:2209-2239, on port [i].  What display and write print,
    they print with put-char and put-string (2028-2158). *)
Definition then_ (r : list port * pres) (k : list port -> fres unit * list port) : fres unit * list port :=
  match r with
  | (ps, PVoid) => k ps
  | (ps, PUndef) => (FUndef, ps)
  | (ps, _) => (FErr FPort, ps)
  end.
Fixpoint do_format (f : nat) (ps : list port) (i : nat) (s : list byte) (n : nat) (xs : list A) : fres unit * list port :=
  match f with
  | O => (FFuel, ps)
  | S f =>
      if length s <=? n then (FOk tt, ps)
      else match nth_error s n with
      | None => (FErr FRange, ps)
      | Some c =>
          if is_ch c "~" then
            match nth_error s (n + 1) with
            | None => (FErr FRange, ps)
            | Some nc =>
                if is_ch nc "a" || is_ch nc "A" then
                  match xs with
                  | [] => (FErr FCar, ps)
                  | x :: q => then_ (pstep ps (PPutString i (disp x))) (fun ps => do_format f ps i s (n + 2) q)
                  end
                else if is_ch nc "s" || is_ch nc "S" then
                  match xs with
                  | [] => (FErr FCar, ps)
                  | x :: q => then_ (pstep ps (PPutString i (wr x))) (fun ps => do_format f ps i s (n + 2) q)
                  end
                else if is_ch nc "%" then then_ (pstep ps (PNewline i)) (fun ps => do_format f ps i s (n + 2) xs)
                else then_ (pstep ps (PPutChar i "~"%char)) (fun ps => do_format f ps i s (n + 2) xs)
            end
          else then_ (pstep ps (PPutChar i c)) (fun ps => do_format f ps i s (n + 1) xs)
      end
  end.
Definition checked (ps : list port) (i : nat) (fmt : list byte) (args : list A) : fres unit * list port :=
  let s := shown fmt in
  match check_format s (length args) with
  | FOk _ => do_format (fmt_fuel s) ps i s 0 args
  | FErr e => (FErr e, ps) | FUndef => (FUndef, ps) | FFuel => (FFuel, ps)
  end.
(** fprintf, prelude.min:2241-2247.  printf and eprintf (2248-2255) are the same on the
    current ports. *)
Definition fprintf (ps : list port) (i : nat) (fmt : list byte) (args : list A) : fres unit * list port :=
  match nth_error ps i with
  | Some p => if input p then (FErr FPort, ps) else checked ps i fmt args
  | None => (FErr FPort, ps)
  end.
(** format, prelude.min:2256-2261: the string. *)
Definition format (ps : list port) (fmt : list byte) (args : list A) : fres (list byte) * list port :=
  match check_format (shown fmt) (length args) with
  | FOk _ =>
      match pstep ps POpenOut with
      | (ps1, PPort i) =>
          match do_format (fmt_fuel (shown fmt)) ps1 i (shown fmt) 0 args with
          | (FOk _, ps2) =>
              match pstep ps2 (PGet i) with
              | (ps3, PStr t) => (FOk t, ps3)
              | (ps3, PUndef) => (FUndef, ps3)
              | (ps3, _) => (FErr FPort, ps3)
              end
          | (FErr e, ps2) => (FErr e, ps2) | (FUndef, ps2) => (FUndef, ps2) | (FFuel, ps2) => (FFuel, ps2)
          end
      | (ps1, _) => (FErr FPort, ps1)
      end
  | FErr e => (FErr e, ps) | FUndef => (FUndef, ps) | FFuel => (FFuel, ps)
  end.
End Format.
Arguments fprintf {A}. Arguments format {A}. Arguments checked {A}. Arguments do_format {A}.
