(** Environments as the library offers them: the environment section of
    src/core/s/prelude.min, 2328-2388, over the primitives of env.c (Env.v), and the
    way definitions and compiled references use the current environment.

    Symbols are numbers.  Simplifications: the marker of variables without a value
    (minim_unbound), which environment-ref can return, is not passed on to further
    calls; the object of a list is its number and its elements; lists are finite. *)
From Coq Require Import ZArith NArith Bool Ascii String List Arith Lia.
From Verif Require Import Base Hashtable Env.
Import ListNotations.
Local Open Scope list_scope.
Local Open Scope nat_scope.

Inductive val : Type :=
| VEnv (i : nat) | VSym (k : nat) | VBool (b : bool) | VProc (p : nat) | VList (id : nat) (l : list val) | VOther (n : nat).
(** eq? *)
Definition eqp (a b : val) : bool :=
  match a, b with
  | VEnv i, VEnv j => i =? j
  | VSym i, VSym j => i =? j
  | VBool i, VBool j => Bool.eqb i j
  | VProc i, VProc j => i =? j
  | VList i _, VList j _ => i =? j
  | VOther i, VOther j => i =? j
  | _, _ => false
  end.

(** What a call does: it returns a value, the marker of a variable without value,
    nothing, a list of names, it calls a procedure without arguments in tail
    position, or it raises one of several errors. *)
Inductive out : Type :=
| Ret (v : val) | RetMarker | RetVoid | RetNames (ks : list nat)
| CallProc (p : nat)
| BadArg (who pred : string) (v : val)      (* raise-argument-error *)
| NoVariable (name : string)                (* a variable of the library is not defined *)
| BadArity                                  (* a procedure is called with the wrong number of arguments *)
| NotFound (k : nat).                       (* raise-missing-error *)

Section Lib.
Variable eq_hash : nat -> N.
Notation world := (world nat val).
Notation step := (estep nat val eq_hash Nat.eqb).
(** The environments and the current one. *)
Record state : Type := mkstate { tables : world; current : nat }.

(** The call (fail) or the value fail, prelude.min 2361-2363 *)
Definition on_fail (fail : val) : out := match fail with VProc p => CallProc p | v => Ret v end.
(** 1/environment-ref, prelude.min 2355-2366; [None] for the procedure default-fail,
    2352-2354, which has two parameters and is not a value known outside.  The name
    raise-arugment-error is not defined. *)
Definition environment_ref (s : state) (env k : val) (fail : option val) : option (state * out) :=
  let failing := match fail with Some f => on_fail f | None => BadArity end in
  match env with
  | VEnv i =>
      match k with
      | VSym k =>
          match step (tables s) (EGet _ _ i k) with
          | Some (_, XMissing _ _) => Some (s, failing)
          | Some (_, XVal _ _ v) =>
              Some (s, match fail with
                       | Some f => if eqp v f then failing else Ret v
                       | None => Ret v
                       end)
          | Some (_, XUnbound _ _) => Some (s, RetMarker)
          | _ => None
          end
      | _ => Some (s, NoVariable "raise-arugment-error")
      end
  | _ => Some (s, NoVariable "raise-arugment-error")
  end.
(** environment-set!, prelude.min 2373-2379 *)
Definition environment_set (s : state) (env k v : val) : option (state * out) :=
  match env with
  | VEnv i =>
      match k with
      | VSym k => match step (tables s) (ESet _ _ i k v) with
                  | Some (w, _) => Some (mkstate w (current s), RetVoid)
                  | None => None
                  end
      | _ => Some (s, BadArg "environment-set!" "symbol?" k)
      end
  | _ => Some (s, BadArg "environment-set!" "environment?" env)
  end.
(** environment-symbols, prelude.min 2345-2349 *)
Definition environment_symbols (s : state) (env : val) : option (state * out) :=
  match env with
  | VEnv i => match step (tables s) (ENames _ _ i) with
              | Some (_, XNames _ _ ks) => Some (s, RetNames ks)
              | _ => None
              end
  | _ => Some (s, BadArg "environment-symbols" "environment?" env)
  end.
(** the symbols in a list of them *)
Fixpoint symbols_of (l : list val) : option (list nat) :=
  match l with
  | [] => Some []
  | VSym k :: r => match symbols_of r with Some ks => Some (k :: ks) | None => None end
  | _ :: _ => None
  end.
Definition do_copy (s : state) (i : nat) (m : bool) (ks : list nat) : option (state * out) :=
  match step (tables s) (ECopy _ _ i m ks) with
  | Some (w, XEnv _ _ j) => Some (mkstate w (current s), Ret (VEnv j))
  | _ => None
  end.
(** 1/copy-environment, prelude.min 2329-2339; andmap checks that it is given a list,
    998-1013 and 1044-1048 *)
Definition copy_named (s : state) (env mut syms : val) : option (state * out) :=
  match env with
  | VEnv i =>
      match mut with
      | VBool m =>
          match syms with
          | VList _ l => match symbols_of l with
                         | Some ks => do_copy s i m ks
                         | None => Some (s, BadArg "copy-environment" "list of symbols" syms)
                         end
          | _ => Some (s, BadArg "andmap" "list?" syms)
          end
      | _ => Some (s, BadArg "copy-environment" "boolean?" mut)
      end
  | _ => Some (s, BadArg "copy-environment" "environment?" env)
  end.
(** copy-environment with one or two arguments, prelude.min 2340-2342: the names come
    from environment-symbols *)
Definition copy_all (s : state) (env mut : val) : option (state * out) :=
  match environment_symbols s env with
  | Some (_, RetNames ks) =>
      match env, mut with
      | VEnv i, VBool m => do_copy s i m ks
      | _, _ => Some (s, BadArg "copy-environment" "boolean?" mut)
      end
  | r => r
  end.

(** The calls, and the uses of the current environment by a program: a definition
    (eval.c 268-304) and a reference in compiled code (320-327). *)
Inductive call : Type :=
| CNew                                          (* make-empty-environment *)
| CRef (env k : val) (fail : option val)
| CSet (env k v : val)
| CSymbols (env : val)
| CCopy (env : val) (mut : option val)
| CCopyNames (env mut syms : val)
| CCurrent
| CSetCurrent (env : val)
| CDefine (k : nat) (v : val)
| CUse (k : nat).
(** prelude.min 2381-2387 for current-environment *)
Definition lstep (s : state) (c : call) : option (state * out) :=
  match c with
  | CNew => match step (tables s) (ENew _ _) with
            | Some (w, XEnv _ _ j) => Some (mkstate w (current s), Ret (VEnv j))
            | _ => None
            end
  | CRef env k fail => environment_ref s env k fail
  | CSet env k v => environment_set s env k v
  | CSymbols env => environment_symbols s env
  | CCopy env mut => copy_all s env (match mut with Some m => m | None => VBool true end)
  | CCopyNames env mut syms => copy_named s env mut syms
  | CCurrent => Some (s, Ret (VEnv (current s)))
  | CSetCurrent env => match env with
                       | VEnv i => Some (mkstate (tables s) i, RetVoid)
                       | _ => Some (s, BadArg "current-environment" "environment?" env)
                       end
  | CDefine k v => match step (tables s) (ESet _ _ (current s) k v) with
                   | Some (w, _) => Some (mkstate w (current s), RetVoid)
                   | None => None
                   end
  | CUse k => match step (tables s) (ERef _ _ (current s) k) with
              | Some (w, _) => Some (mkstate w (current s), RetVoid)
              | None => None
              end
  end.
Fixpoint lrun (s : state) (cs : list call) : option (state * list out) :=
  match cs with
  | [] => Some (s, [])
  | c :: r => match lstep s c with
              | Some (s1, x) => match lrun s1 r with Some (s2, xs) => Some (s2, x :: xs) | None => None end
              | None => None
              end
  end.
End Lib.
(** One empty environment, which is the current one. *)
Definition start (eq_hash : nat -> N) : option state :=
  match estep nat val eq_hash Nat.eqb (world0 _ _) (ENew _ _) with
  | Some (w, _) => Some (mkstate w 0)
  | None => None
  end.
