(** Model of src/library/private/promise.min.

    Programs that use promises are trees of actions: creating a promise with
    [delay], [force], [lazy], reading and writing variables, raising and
    catching.  The producer of a promise is again such a program, so it can
    force other promises, itself, or create new ones.  The state carries a trace
    of the calls of producers and of the values that [force] and the iterations
    of [lazy] returned; the trace is not part of the code. *)
From Coq Require Import ZArith Bool List.
From Verif Require Import Hashtable.
Import ListNotations.

Inductive pval : Type :=
| PInt (z : Z)                      (* any value that is not a promise *)
| PProm (p : nat).

Inductive prog : Type :=
| PRet (v : pval)
| PRaise (v : pval)
| PDelay (body : prog) (k : pval -> prog)
| PForce (v : pval) (k : pval -> prog)
| PLazy (v : pval) (k : pval -> prog)
| PGet (x : nat) (k : pval -> prog)
| PSet (x : nat) (v : pval) (k : prog)
| PTry (body : prog) (handler : pval -> prog) (k : pval -> prog).

(** promise.min:17-24 *)
Record promise := mkprom { producer : prog; cache : pval; forced : bool }.

Inductive event : Type :=
| EStart (p : nat)                  (* the producer is called *)
| EFinish (p : nat) (v : pval)      (* it returns *)
| EAbort (p : nat)                  (* it raises *)
| EForced (p : nat) (v : pval).     (* the force of [p] returns [v] *)

Record pstate := mkpstate {
  proms : list promise;
  vars : nat -> pval;
  trace : list event }.             (* newest first *)

Inductive pout : Type := Done (v : pval) | Raised (v : pval) | Timeout.

Definition emit (e : event) (s : pstate) : pstate := mkpstate (proms s) (vars s) (e :: trace s).
Definition set_prom (p : nat) (x : promise) (s : pstate) : pstate := mkpstate (upd p x (proms s)) (vars s) (trace s).

(** [force] after the type check (promise.min:63-70), which is also one iteration
    of [lazy] (50-57).  [call] runs a producer. *)
Definition force_step (call : prog -> pstate -> pout * pstate) (p : nat) (s : pstate) : pout * pstate :=
  match nth_error (proms s) p with
  | None => (Raised (PInt 0), s)
  | Some x =>
      if forced x then (Done (cache x), emit (EForced p (cache x)) s)
      else
        match call (producer x) (emit (EStart p) s) with
        | (Done v, s1) =>
            let s2 := set_prom p (mkprom (producer x) v true) (emit (EFinish p v) s1) in
            (Done v, emit (EForced p v) s2)
        | (Raised e, s1) => (Raised e, emit (EAbort p) s1)
        | (Timeout, s1) => (Timeout, s1)
        end
  end.

(** The loop of [lazy], promise.min:48-58 *)
Fixpoint lazy_loop (call : prog -> pstate -> pout * pstate) (fuel : nat) (p : nat) (s : pstate) : pout * pstate :=
  match fuel with
  | O => (Timeout, s)
  | S f =>
      match force_step call p s with
      | (Done (PProm q), s1) => lazy_loop call f q s1
      | r => r
      end
  end.

Definition andthen (r : pout * pstate) (f : pval -> pstate -> pout * pstate) : pout * pstate :=
  match r with
  | (Done v, s) => f v s
  | _ => r
  end.

(** Running a program; [Timeout] when the fuel is used up, with the state reached
    so far. *)
Fixpoint prun (fuel : nat) (c : prog) (s : pstate) : pout * pstate :=
  match fuel with
  | O => (Timeout, s)
  | S f =>
      match c with
      | PRet v => (Done v, s)
      | PRaise v => (Raised v, s)
      | PDelay body k =>                     (* promise.min:21-24,35-38 *)
          prun f (k (PProm (length (proms s))))
            (mkpstate (proms s ++ [mkprom body (PInt 0) false]) (vars s) (trace s))
      | PForce v k =>
          match v with
          | PProm p => andthen (force_step (prun f) p s) (fun v => prun f (k v))
          | PInt _ => (Raised v, s)          (* promise.min:61-62 *)
          end
      | PLazy v k =>
          match v with
          | PProm p => andthen (lazy_loop (prun f) f p s) (fun v => prun f (k v))
          | PInt _ => (Raised v, s)          (* promise.min:46-47 *)
          end
      | PGet x k => prun f (k (vars s x)) s
      | PSet x v k => prun f k (mkpstate (proms s) (fun y => if Nat.eqb y x then v else vars s y) (trace s))
      | PTry body h k =>
          match prun f body s with
          | (Done v, s1) => prun f (k v) s1
          | (Raised v, s1) => andthen (prun f (h v) s1) (fun v => prun f (k v))
          | r => r
          end
      end
  end.

Definition pstate0 : pstate := mkpstate [] (fun _ => PInt 0) [].
