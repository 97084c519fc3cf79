(** Model of top-level environments: src/core/c/env.c:15-169, 197-253 and the
    top-level accessors of src/core/c/eval.c:268-340.

    An environment is a table of outer cells ((key . value) . (hash . mutable?)).
    The inner pair (key . value) is what compiled code holds on to
    (eval.c:320-327), so inner pairs live in a heap; spine pairs and outer cells
    are never mutated once built, so they are plain values here. *)
From Coq Require Import ZArith NArith Bool Ascii String List Lia.
From Verif Require Import Base Hashtable.
Import ListNotations.

Section Env.
Variables K V : Type.
Variable eq_hash : K -> N.            (* hashtable.c:27-41: hash of the symbol's address *)
Variable keqb : K -> K -> bool.       (* pointer equality of symbols *)

(** Stored value: [None] is [minim_unbound]. *)
Definition slotv := option V.

(** An outer cell: number of its inner pair, stored hash (a fixnum), mutable flag. *)
Record ocell := mkocell { inner : nat; ohash : Z; omut : bool }.
(** minim.h:399-405: bucket vector and count. *)
Record tenv := mktenv { tbuckets : list (list ocell); tcount : N }.

(** The heap of inner pairs, the environments of the program, and the references
    to inner pairs that compiled code has obtained so far. *)
Record world := mkworld { pairs : list (K * slotv); envs : list tenv; refs : list nat }.

(** [x % alloc] on size_t. *)
Definition bidx (h : N) (alloc : nat) : nat := N.to_nat (h mod N.of_nat alloc).
(** [minim_fixnum(h) % alloc]: the stored long is converted back to size_t. *)
Definition fidx (h : Z) (alloc : nat) : nat := bidx (u64_of_long h) alloc.

(** Mtop_env, env.c:15-28.  [None]: runs past the table of sizes. *)
Definition make_env (hint : N) : option tenv :=
  match alloc_for (4 * hint) with
  | Some a => Some (mktenv (repeat [] (N.to_nat a)) 0)
  | None => None
  end.

(** top_env_find, env.c:142-154. *)
Fixpoint find_in (ps : list (K * slotv)) (b : list ocell) (k : K) : option ocell :=
  match b with
  | [] => None
  | c :: r =>
      match nth_error ps (inner c) with
      | Some (k', _) => if keqb k' k then Some c else find_in ps r k
      | None => find_in ps r k
      end
  end.
Definition env_find (ps : list (K * slotv)) (e : tenv) (k : K) : option ocell :=
  find_in ps (nth (bidx (eq_hash k) (length (tbuckets e))) (tbuckets e) []) k.

Definition tpush (i : nat) (c : ocell) (bs : list (list ocell)) : list (list ocell) :=
  upd i (c :: nth i bs []) bs.

(** top_env_resize, env.c:104-123. *)
Definition tmove_chain (a : nat) (bs : list (list ocell)) (b : list ocell) : list (list ocell) :=
  fold_left (fun acc c => tpush (fidx (ohash c) a) c acc) b bs.
Definition env_resize (e : tenv) : option tenv :=
  match alloc_for (4 * tcount e) with
  | Some a => Some (mktenv (fold_left (tmove_chain (N.to_nat a)) (tbuckets e) (repeat [] (N.to_nat a)))
                      (tcount e))
  | None => None
  end.

(** top_env_insert, env.c:125-140; returns the new inner pair. *)
Definition env_insert (ps : list (K * slotv)) (e : tenv) (k : K) (v : slotv)
  : option (list (K * slotv) * tenv * nat) :=
  match (if (N.of_nat (length (tbuckets e)) <? tcount e)%N then env_resize e else Some e) with
  | Some e1 =>
      let h := eq_hash k in
      let c := length ps in
      let i := bidx h (length (tbuckets e1)) in
      Some (ps ++ [(k, v)],
            mktenv (tpush i (mkocell c (long_of_u64 h) true) (tbuckets e1)) (tcount e1 + 1), c)
  | None => None
  end.

(** [minim_cdar(cell) = v]. *)
Definition set_pair (ps : list (K * slotv)) (c : nat) (v : slotv) : list (K * slotv) :=
  match nth_error ps c with Some (k, _) => upd c (k, v) ps | None => ps end.

(** environment_variable_set, env.c:242-253, and the single-value case of
    tl_env_bind_values, eval.c:292-304 (naming of closures left out). *)
Definition env_set (ps : list (K * slotv)) (e : tenv) (k : K) (v : slotv)
  : option (list (K * slotv) * tenv) :=
  match env_find ps e k with
  | Some c => Some (set_pair ps (inner c) v, e)
  | None => match env_insert ps e k v with Some (ps', e', _) => Some (ps', e') | None => None end
  end.

(** tl_env_lookup_cell, eval.c:320-327. *)
Definition env_cell (ps : list (K * slotv)) (e : tenv) (k : K)
  : option (list (K * slotv) * tenv * nat) :=
  match env_find ps e k with
  | Some c => Some (ps, e, inner c)
  | None => env_insert ps e k None
  end.

(** top_env_symbols, env.c:156-169. *)
Definition env_symbols (ps : list (K * slotv)) (e : tenv) : list K :=
  fold_left (fun acc b => fold_left (fun acc c =>
      match nth_error ps (inner c) with Some (k, _) => k :: acc | None => acc end) b acc)
    (tbuckets e) [].

(** top_env_copy2, env.c:71-102. *)
Fixpoint copy_syms (src : tenv) (mut : bool) (syms : list K) (ps : list (K * slotv)) (e2 : tenv)
  : list (K * slotv) * tenv :=
  match syms with
  | [] => (ps, e2)
  | k :: r =>
      match env_find ps src k with
      | Some c =>
          match nth_error ps (inner c) with
          | Some kv =>
              let i := fidx (ohash c) (length (tbuckets e2)) in
              copy_syms src mut r (ps ++ [kv])
                (mktenv (tpush i (mkocell (length ps) (ohash c) mut) (tbuckets e2)) (tcount e2 + 1))
          | None => copy_syms src mut r ps e2
          end
      | None => copy_syms src mut r ps e2
      end
  end.
Definition env_copy2 (ps : list (K * slotv)) (src : tenv) (mut : bool) (syms : list K)
  : option (list (K * slotv) * tenv) :=
  match make_env (N.of_nat (length syms)) with
  | Some e2 => Some (copy_syms src mut syms ps e2)
  | None => None
  end.

(** top_env_copy, env.c:30-67: bucket by bucket, in order. *)
Fixpoint copy_chain (mut : bool) (ps : list (K * slotv)) (b : list ocell)
  : list (K * slotv) * list ocell :=
  match b with
  | [] => (ps, [])
  | c :: r =>
      match nth_error ps (inner c) with
      | Some kv => let '(ps', r') := copy_chain mut (ps ++ [kv]) r in
                   (ps', mkocell (length ps) (ohash c) mut :: r')
      | None => copy_chain mut ps r
      end
  end.
Fixpoint copy_chains (mut : bool) (ps : list (K * slotv)) (bs : list (list ocell))
  : list (K * slotv) * list (list ocell) :=
  match bs with
  | [] => (ps, [])
  | b :: r => let '(ps1, b') := copy_chain mut ps b in
              let '(ps2, r') := copy_chains mut ps1 r in (ps2, b' :: r')
  end.
Definition env_copy (ps : list (K * slotv)) (src : tenv) (mut : bool) : list (K * slotv) * tenv :=
  let '(ps', bs) := copy_chains mut ps (tbuckets src) in (ps', mktenv bs (tcount src)).

(** ** Histories

    Environments are named by the order of their creation, references by the
    order in which they were obtained. *)
Inductive eop :=
| ENew                                  (* make-empty-environment *)
| ESet (e : nat) (k : K) (v : V)        (* environment-set!, top-level definition *)
| EAssign (e : nat) (k : K) (v : V)     (* set! on a top-level variable, eval.c:329-332 *)
| EGet (e : nat) (k : K)                (* environment-ref, variable reference *)
| ENames (e : nat)                      (* environment-symbols *)
| ERef (e : nat) (k : K)                (* compiled code captures the variable *)
| ERefGet (r : nat)                     (* ... reads it *)
| ERefSet (r : nat) (v : V)             (* ... assigns it, eval.c:338-340 *)
| ECopy (e : nat) (mut : bool) (syms : list K)  (* copy-environment *)
| ECopyAll (e : nat) (mut : bool).      (* make-base-environment *)

Inductive eout :=
| XVoid | XEnv (e : nat) | XRef (r : nat)
| XMissing                              (* no such variable *)
| XUnbound                              (* captured but never defined *)
| XVal (v : V)
| XNames (ks : list K).

Definition xval (s : slotv) : eout := match s with Some v => XVal v | None => XUnbound end.

(** [None]: undefined behaviour or an operand that names nothing. *)
Definition estep (w : world) (o : eop) : option (world * eout) :=
  let ps := pairs w in
  match o with
  | ENew => match make_env 0 with
            | Some e => Some (mkworld ps (envs w ++ [e]) (refs w), XEnv (length (envs w)))
            | None => None
            end
  | ESet i k v =>
      match nth_error (envs w) i with
      | Some e => match env_set ps e k (Some v) with
                  | Some (ps', e') => Some (mkworld ps' (upd i e' (envs w)) (refs w), XVoid)
                  | None => None
                  end
      | None => None
      end
  | EAssign i k v =>
      match nth_error (envs w) i with
      | Some e => match env_find ps e k with
                  | Some c => Some (mkworld (set_pair ps (inner c) (Some v)) (envs w) (refs w), XVoid)
                  | None => None     (* minim_cdar of a non-pair *)
                  end
      | None => None
      end
  | EGet i k =>
      match nth_error (envs w) i with
      | Some e => match env_find ps e k with
                  | Some c => match nth_error ps (inner c) with
                              | Some (_, s) => Some (w, xval s)
                              | None => None
                              end
                  | None => Some (w, XMissing)
                  end
      | None => None
      end
  | ENames i =>
      match nth_error (envs w) i with
      | Some e => Some (w, XNames (env_symbols ps e))
      | None => None
      end
  | ERef i k =>
      match nth_error (envs w) i with
      | Some e => match env_cell ps e k with
                  | Some (ps', e', c) =>
                      Some (mkworld ps' (upd i e' (envs w)) (refs w ++ [c]), XRef (length (refs w)))
                  | None => None
                  end
      | None => None
      end
  | ERefGet r =>
      match nth_error (refs w) r with
      | Some c => match nth_error ps c with
                  | Some (_, s) => Some (w, xval s)
                  | None => None
                  end
      | None => None
      end
  | ERefSet r v =>
      match nth_error (refs w) r with
      | Some c => Some (mkworld (set_pair ps c (Some v)) (envs w) (refs w), XVoid)
      | None => None
      end
  | ECopy i mut syms =>
      match nth_error (envs w) i with
      | Some e => match env_copy2 ps e mut syms with
                  | Some (ps', e2) => Some (mkworld ps' (envs w ++ [e2]) (refs w), XEnv (length (envs w)))
                  | None => None
                  end
      | None => None
      end
  | ECopyAll i mut =>
      match nth_error (envs w) i with
      | Some e => let '(ps', e2) := env_copy ps e mut in
                  Some (mkworld ps' (envs w ++ [e2]) (refs w), XEnv (length (envs w)))
      | None => None
      end
  end.

Fixpoint erun (w : world) (os : list eop) : option (world * list eout) :=
  match os with
  | [] => Some (w, [])
  | o :: r =>
      match estep w o with
      | Some (w1, x) =>
          match erun w1 r with Some (w2, xs) => Some (w2, x :: xs) | None => None end
      | None => None
      end
  end.
Definition world0 : world := mkworld [] [] [].

(** ** Specification: environments as finite maps

    An environment is an association list from names to values; a reference is
    just the name of a variable of an environment. *)
Definition map_env := list (K * slotv).
Notation sget := (aget K slotv keqb).
Notation sset := (aset K slotv keqb).
Record spec := mkspec { senvs : list map_env; srefs : list (nat * K) }.

Definition restrict (m : map_env) (syms : list K) : map_env :=
  flat_map (fun k => match sget m k with Some s => [(k, s)] | None => [] end) syms.

Definition sp_step (s : spec) (o : eop) : option (spec * eout) :=
  match o with
  | ENew => Some (mkspec (senvs s ++ [[]]) (srefs s), XEnv (length (senvs s)))
  | ESet i k v =>
      match nth_error (senvs s) i with
      | Some m => Some (mkspec (upd i (sset m k (Some v)) (senvs s)) (srefs s), XVoid)
      | None => None
      end
  | EAssign i k v =>
      match nth_error (senvs s) i with
      | Some m => match sget m k with
                  | Some _ => Some (mkspec (upd i (sset m k (Some v)) (senvs s)) (srefs s), XVoid)
                  | None => None
                  end
      | None => None
      end
  | EGet i k =>
      match nth_error (senvs s) i with
      | Some m => Some (s, match sget m k with Some x => xval x | None => XMissing end)
      | None => None
      end
  | ENames i =>
      match nth_error (senvs s) i with
      | Some m => Some (s, XNames (map fst m))
      | None => None
      end
  | ERef i k =>
      match nth_error (senvs s) i with
      | Some m =>
          let m' := match sget m k with Some _ => m | None => sset m k None end in
          Some (mkspec (upd i m' (senvs s)) (srefs s ++ [(i, k)]), XRef (length (srefs s)))
      | None => None
      end
  | ERefGet r =>
      match nth_error (srefs s) r with
      | Some (i, k) =>
          match nth_error (senvs s) i with
          | Some m => match sget m k with Some x => Some (s, xval x) | None => None end
          | None => None
          end
      | None => None
      end
  | ERefSet r v =>
      match nth_error (srefs s) r with
      | Some (i, k) =>
          match nth_error (senvs s) i with
          | Some m => Some (mkspec (upd i (sset m k (Some v)) (senvs s)) (srefs s), XVoid)
          | None => None
          end
      | None => None
      end
  | ECopy i _ syms =>
      match nth_error (senvs s) i with
      | Some m => Some (mkspec (senvs s ++ [restrict m syms]) (srefs s), XEnv (length (senvs s)))
      | None => None
      end
  | ECopyAll i _ =>
      match nth_error (senvs s) i with
      | Some m => Some (mkspec (senvs s ++ [m]) (srefs s), XEnv (length (senvs s)))
      | None => None
      end
  end.

Fixpoint sp_run (s : spec) (os : list eop) : option (spec * list eout) :=
  match os with
  | [] => Some (s, [])
  | o :: r =>
      match sp_step s o with
      | Some (s1, x) =>
          match sp_run s1 r with Some (s2, xs) => Some (s2, x :: xs) | None => None end
      | None => None
      end
  end.
Definition spec0 : spec := mkspec [] [].

End Env.
