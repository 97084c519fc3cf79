(** Templates: the [syntax] form, src/library/private/template.min and
    template-utils.min.

    The macro parses the template into instructions, finds out which variables each
    ellipsis repeats, folds the constants and builds an expression; here the last
    step and the evaluation of the expression are one function, [build].

    Simplifications: values are trees; a pattern variable is its depth and its value
    when the expression is evaluated (the code keeps an identifier bound to it); the
    temporary identifiers of make-template-builder are fresh, so the names in
    [var-map] stand for values.  The source locations kept in the instructions are
    left out. *)
From Coq Require Import ZArith NArith Bool Ascii String List Arith Lia.
From Verif Require Import Base Check Expand LibRead StxCase.
Import ListNotations.
Local Open Scope list_scope.

(** [TBad]: the template is refused when the macro is expanded; [TErr]: the
    expression raises an error when it is evaluated; [TFuel]: not finished within the
    fuel of the model. *)
Inductive tres (A : Type) : Type := TOk (a : A) | TBad | TErr | TFuel.
Arguments TOk {A} _. Arguments TBad {A}. Arguments TErr {A}. Arguments TFuel {A}.
Definition tbind {A B} (r : tres A) (k : A -> tres B) : tres B :=
  match r with TOk a => k a | TBad => TBad | TErr => TErr | TFuel => TFuel end.
Definition tmap {A B} (f : A -> tres B) : list A -> tres (list B) :=
  fix go l := match l with
              | [] => TOk []
              | x :: r => tbind (f x) (fun y => tbind (go r) (fun ys => TOk (y :: ys)))
              end.

(** Pattern variables: name, depth, value. *)
Definition pvar : Type := list byte * nat * obj.
Definition pname (v : pvar) : list byte := fst (fst v).
Definition pdepth (v : pvar) : nat := snd (fst v).
Definition pvalue (v : pvar) : obj := snd v.

(** The instructions, template-utils.min 62-74; [OpApp o] is [(append o)]. *)
Inductive op : Type := OpAt (n : nat) | OpTail (n : nat) | OpApp (o : op).
Inductive instr : Type :=
| ISubst (form : obj) (ops : list op) (ins : list instr)
| IVector (i : instr)
| IAppend (mapped const : list pvar) (i : instr)
| IConst (d : obj)
| IVar (v : pvar).

Definition WILD : obj := OSym (s2b "_").
(** [(eq? x '_)] *)
Definition wildp (o : obj) : bool :=
  match o with OSym s => if list_eq_dec ascii_dec s (s2b "_") then true else false | _ => false end.
(** [...?], template-utils.min 11-13 *)
Definition dotsp (o : obj) : bool := stx_is "..." o.

(** make-wildcard-list, template-utils.min 27-30 *)
Definition wildcards (n : nat) (tail : bool) : obj :=
  fold_right OPair (if tail then WILD else ONull) (repeat WILD n).
(** make-range-list, template-utils.min 32-35 *)
Definition ranges (n : nat) (tail : bool) : list op :=
  map OpAt (seq 0 n) ++ (if tail then [OpTail n] else []).

(** replace-slots, template-utils.min 40-60 *)
Fixpoint replace_slots (form : obj) (plugs : list obj) : tres obj :=
  match form with
  | ONull => match plugs with [] => TOk ONull | _ => TBad end
  | OPair a d =>
      match plugs with
      | [] => TBad
      | p :: ps => tbind (replace_slots d ps) (fun r => TOk (OPair (if wildp a then p else a) r))
      end
  | x => if wildp x then match plugs with [p] => TOk p | _ => TBad end else TOk x
  end.

Section Parse.
  (** get-pattern: the depth and value of a pattern variable *)
  Variable get : list byte -> option (nat * obj).

  (** the first loop of parse-template/pair, template-utils.min 193-201 *)
  Fixpoint tspine (o : obj) : list obj * option obj :=
    match o with
    | ONull => ([], None)
    | OPair a d => let '(l, t) := tspine d in (a :: l, t)
    | OSyntax (OPair a d) _ => let '(l, t) := tspine d in (a :: l, t)
    | x => ([], Some x)
    end.
  (** the second loop, template-utils.min 202-213 *)
  Definition titems (parse : nat -> obj -> tres instr) (depth : nat) : list obj -> tres (list instr) :=
    fix go (l : list obj) : tres (list instr) :=
      match l with
      | [] => TOk []
      | x :: rest =>
          match rest with
          | [] => tbind (parse depth x) (fun i => TOk [i])
          | y :: rest' =>
              if dotsp y
              then tbind (parse (S depth) x) (fun i => tbind (go rest') (fun is => TOk (IAppend [] [] i :: is)))
              else tbind (parse depth x) (fun i => tbind (go rest) (fun is => TOk (i :: is)))
          end
      end.
  (** parse, parse-template/pair and parse-template/nonpair, template-utils.min
      191-252.  [(syntax-e x)] of something that is not a syntax object raises. *)
  Fixpoint tparse (f : nat) (depth : nat) (t : obj) : tres instr :=
    match f with
    | O => TFuel
    | S f =>
        match stx_pair t with
        | Some _ =>
            let '(lst, tail) := tspine t in
            tbind (titems (tparse f) depth lst) (fun is =>
              match tail with
              | Some tl => tbind (tparse f depth tl) (fun i =>
                  TOk (ISubst (wildcards (length is) true) (ranges (length is) true) (is ++ [i])))
              | None => TOk (ISubst (wildcards (length is) false) (ranges (length is) false) is)
              end)
        | None =>
            if stx_vector t
            then match t with
                 | OSyntax e _ => match vec_elems e with
                                  | Some es => tbind (tparse f depth (to_stx (of_list es))) (fun i => TOk (IVector i))
                                  | None => TBad
                                  end
                 | _ => TBad
                 end
            else match t with
                 | OSyntax (OSym x) _ =>
                     match get x with
                     | Some (p, v) => if depth <? p then TBad else TOk (IVar (x, p, v))
                     | None => TOk (IConst (OSym x))
                     end
                 | OSyntax e _ => TOk (IConst e)
                 | _ => TBad
                 end
        end
    end.
End Parse.

(** compute-vars-for-append, template-utils.min 76-133: the instruction and the
    variables in it, in order *)
Fixpoint comp (depth : nat) (i : instr) : tres (instr * list pvar) :=
  match i with
  | ISubst form ops ins =>
      tbind (tmap (comp depth) ins) (fun rs => TOk (ISubst form ops (map fst rs), flat_map snd rs))
  | IAppend _ _ i =>
      tbind (comp (S depth) i) (fun r =>
        let '(inner, vs) := r in
        match vs with
        | [] => TBad
        | _ => if existsb (fun v => depth <=? pdepth v) vs
               then TOk (IAppend (filter (fun v => depth <? pdepth v) vs) (filter (fun v => negb (depth <? pdepth v)) vs) inner, vs)
               else TBad
        end)
  | IVector i => tbind (comp depth i) (fun r => TOk (IVector (fst r), snd r))
  | IConst d => TOk (IConst d, [])
  | IVar v => TOk (IVar v, [v])
  end.

Definition is_const (i : instr) : bool := match i with IConst _ => true | _ => false end.
Definition is_append (i : instr) : bool := match i with IAppend _ _ _ => true | _ => false end.
(** [(caddr i)] of a constant *)
Definition const_of (i : instr) : obj := match i with IConst d => d | _ => ONull end.
(** the inputs, operations and plugs after folding, template-utils.min 149-163 *)
Fixpoint fold_consts (ins : list instr) (ops : list op) : tres (list instr * list op * list obj) :=
  match ins with
  | [] => TOk ([], [], [])
  | i :: ins' =>
      match ops with
      | [] => TBad
      | o :: ops' =>
          tbind (fold_consts ins' ops') (fun r =>
            let '(is, os, ps) := r in
            if is_const i then TOk (is, os, const_of i :: ps) else TOk (i :: is, o :: os, WILD :: ps))
      end
  end.
(** the operations of repeated inputs, template-utils.min 166-173 *)
Fixpoint append_ops (ins : list instr) (ops : list op) : tres (list op) :=
  match ins with
  | [] => TOk []
  | i :: ins' =>
      match ops with
      | [] => TBad
      | o :: ops' => tbind (append_ops ins' ops') (fun os => TOk ((if is_append i then OpApp o else o) :: os))
      end
  end.
(** the loop [rec], template-utils.min 142-174; at most two rounds *)
Fixpoint opt_subst (n : nat) (form : obj) (ops : list op) (ins : list instr) : tres instr :=
  match n with
  | O => TFuel
  | S n =>
      if forallb is_const ins
      then tbind (replace_slots form (map const_of ins)) (fun d => TOk (IConst d))
      else if existsb is_const ins
      then tbind (fold_consts ins ops) (fun r =>
             let '(is, os, ps) := r in
             tbind (replace_slots form ps) (fun form' => opt_subst n form' os is))
      else tbind (append_ops ins ops) (fun os => TOk (ISubst form os ins))
  end.
(** optimize-template, template-utils.min 135-189 *)
Fixpoint opt (i : instr) : tres instr :=
  match i with
  | ISubst form ops ins => tbind (tmap opt ins) (fun ins => opt_subst 2 form ops ins)
  | IAppend m c i => tbind (opt i) (fun i => TOk (IAppend m c i))
  | IVector i => tbind (opt i) (fun i => TOk (IVector i))
  | IConst d => TOk (IConst d)
  | IVar v => TOk (IVar v)
  end.

(** run/mode of template-subst, template-utils.min 324-331; [(append arg rest)]
    checks that both are lists, prelude.min 951-956 *)
Fixpoint run_at (n : nat) (k : obj -> tres obj) (guide : obj) : tres obj :=
  match n with
  | O => k guide
  | S n => match guide with OPair a d => tbind (run_at n k d) (fun r => TOk (OPair a r)) | _ => TErr end
  end.
Definition run_mode (o : op) (guide arg : obj) : tres obj :=
  match o with
  | OpAt n => run_at n (fun g => match g with OPair _ d => TOk (OPair arg d) | _ => TErr end) guide
  | OpApp (OpAt n) =>
      run_at n (fun g => match g with
                         | OPair _ d => match to_list arg, to_list d with
                                        | Some l, Some m => TOk (of_list (l ++ m))
                                        | _, _ => TErr
                                        end
                         | _ => TErr
                         end) guide
  | OpTail n => run_at n (fun _ => TOk arg) guide
  | OpApp _ => TErr
  end.
(** run, template-utils.min 333-342, on reversed lists *)
Fixpoint run (guide : obj) (ops : list op) (args : list obj) : tres obj :=
  match ops with
  | [] => TOk guide
  | o :: ops => match args with
                | [] => TErr
                | a :: args => tbind (run_mode o guide a) (fun g => run g ops args)
                end
  end.
(** template-subst, template-utils.min 323-345; its first argument is quoted, which
    removes syntax objects from it *)
Definition template_subst (form : obj) (ops : list op) (args : list obj) : tres obj :=
  tbind (run (strip form) (rev ops) (rev args)) (fun g => TOk (to_stx g)).
(** template-vector, template-utils.min 347-348 *)
Definition template_vector (v : obj) : tres obj :=
  match v with
  | OSyntax e _ => match to_list e with Some l => TOk (to_stx (OVec l)) | None => TErr end
  | _ => TErr
  end.

Definition lookup (vm : list (list byte * obj)) (x : list byte) : option obj :=
  match find (fun e => if list_eq_dec ascii_dec (fst e) x then true else false) vm with
  | Some e => Some (snd e)
  | None => None
  end.
(** the value of a variable, template-utils.min 295-297, 310-312 *)
Definition value_of (vm : list (list byte * obj)) (v : pvar) : obj :=
  match lookup vm (pname v) with Some w => w | None => pvalue v end.

(** The argument lists of [map], prelude.min 993-1009 (check-args!): [None] when one
    is not a list, or they differ in length. *)
Fixpoint all_lists (vs : list obj) : option (list (list obj)) :=
  match vs with
  | [] => Some []
  | v :: vs => match to_list v, all_lists vs with Some l, Some ls => Some (l :: ls) | _, _ => None end
  end.
Definition map_rows (vs : list obj) : option (list (list obj)) :=
  match all_lists vs with
  | Some (l :: ls) =>
      if forallb (fun m => length m =? length l) ls
      then Some (map (fun i => map (fun m => nth i m ONull) (l :: ls)) (seq 0 (length l)))
      else None
  | _ => None
  end.

(** make-template-builder, template-utils.min 258-315, and the evaluation of what it
    builds.  [map] with no list is a call with one argument: an arity error. *)
Fixpoint build (vm : list (list byte * obj)) (i : instr) : tres obj :=
  match i with
  | ISubst form ops ins => tbind (tmap (build vm) ins) (fun args => template_subst form ops args)
  | IAppend mapped _ i =>
      match map_rows (map (value_of vm) mapped) with
      | Some rows => tbind (tmap (fun row => build (rev (combine (map pname mapped) row) ++ vm) i) rows)
                           (fun l => TOk (of_list l))
      | None => TErr
      end
  | IVector i => tbind (build vm i) template_vector
  | IConst d => TOk (to_stx d)
  | IVar v => TOk (value_of vm v)
  end.

(** parse-template and do-template, template-utils.min 254-256, 319-321, followed by
    the evaluation of the expression *)
Definition template (get : list byte -> option (nat * obj)) (f : nat) (t : obj) : tres obj :=
  tbind (tparse get f 0 t) (fun i => tbind (comp 0 i) (fun r => tbind (opt (fst r)) (build []))).
