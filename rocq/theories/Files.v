(** Loading files and the current directory: src/core/c/system.c:21-40, 66-120, 138-168,
    src/core/s/prelude.min:2392-2419, and the evaluation that [load] starts inside
    another one, src/core/c/eval.c:437-466, 707-710.

    The file system has no symbolic links and does not change while a program runs;
    absolute paths are shorter than PATH_MAX.  A stream is the list of the forms in the
    file. *)
From Coq Require Import ZArith NArith Bool Ascii String List Arith Lia.
From Verif Require Import Base Heap HeapM Ast Code Sem Vm Raise Path.
Import ListNotations.
Local Open Scope list_scope.
Local Open Scope nat_scope.

(** The name of a directory entry, and the position of a file or directory: the names
    from the root. *)
Notation name := str.
Notation pos := (list name).

(** What a program does, as far as the files and the directory are concerned: it may
    stop with a value, do something else ([AEmit]), ask for the current directory, change
    it (and go on with the answer: the handler of errors decides what follows a failure),
    or load a file; [ALoad] is a call of load whose value is the value of the whole form
    (the second part: what the handler of errors does), [ANested] a call whose value the
    program waits for (false: an error was handled). [AExit] ends the process. *)
Section Act.
  Variables E V : Type.
  Inductive act : Type :=
  | ARet (v : V)
  | AExit
  | AEmit (e : E) (k : act)
  | APwd (k : str -> act)
  | ACd (p : str) (k : bool -> act)
  | ALoad (f : str) (h : act)
  | ANested (f : str) (k : bool -> act).
  (** A form of a file: the program it is, or something that read_object or check_expr
      refuses. *)
  Inductive form : Type := FBad | FGood (a : act).
  Record fs : Type := FS { is_dir : pos -> bool; contents : pos -> option (list form) }.
  Definition is_file (F : fs) (p : pos) : bool := match contents F p with Some _ => true | None => false end.
  Definition exists_at (F : fs) (p : pos) : bool := is_dir F p || is_file F p.

  (** The components of a path: the text between the slashes. *)
  Fixpoint split_at (cur : name) (s : str) : list name :=
    match s with
    | [] => [rev cur]
    | c :: r => if Ascii.eqb c slash then rev cur :: split_at [] r else split_at (c :: cur) r
    end.
  Definition split (s : str) : list name := split_at [] s.
  (** The lookup of the operating system (fopen, chdir, realpath). *)
  Definition dot : name := ["."%char].
  Definition dotdot : name := ["."%char; "."%char].
  Definition name_eqb (a b : name) : bool := if list_eq_dec ascii_dec a b then true else false.
  Fixpoint walk (F : fs) (cur : pos) (cs : list name) : option pos :=
    match cs with
    | [] => Some cur
    | c :: r =>
        if is_dir F cur then
          if name_eqb c [] || name_eqb c dot then walk F cur r
          else if name_eqb c dotdot then walk F (removelast cur) r
          else if exists_at F (cur ++ [c]) then walk F (cur ++ [c]) r else None
        else None
    end.
  Definition resolve (F : fs) (cwd : pos) (p : str) : option pos :=
    match p with
    | [] => None
    | c :: _ => walk F (if Ascii.eqb c slash then [] else cwd) (split p)
    end.
  (** getcwd and realpath: the absolute path of a position. *)
  Fixpoint join (p : pos) : str := match p with [] => [] | n :: r => slash :: n ++ join r end.
  Definition render (p : pos) : str := match p with [] => [slash] | _ => join p end.

  (** The process: its directory, what the thread records of it (tc_directory,
      minim.h:812), and what has happened so far. *)
  Record st : Type := St { s_cwd : pos; s_rec : str; s_log : list E }.
  Definition emit (e : E) (s : st) : st := St (s_cwd s) (s_rec s) (s_log s ++ [e]).

  (** The end of a piece of work: a value, an error that C code signals (with a message,
      to the handler), the end of the process, undefined behaviour; [LFuel]: not enough
      steps (not an outcome of the program). *)
  Inductive lres (A : Type) : Type :=
  | LOk (v : A) (s : st)
  | LErr (s : st)
  | LExit
  | LUndef
  | LFuel.

  (** get_file_dir, system.c:79-92: up to the last slash. *)
  Fixpoint up_to_slash (r : str) : option str :=     (* the path in reverse: the loop counts down *)
    match r with
    | [] => None
    | c :: t => if Ascii.eqb c slash then Some (c :: t) else up_to_slash t
    end.
  Definition get_file_dir (p : str) : option str := option_map (@rev ascii) (up_to_slash (rev p)).

  (** set_current_dir, system.c:66-73. *)
  Definition set_current_dir (F : fs) (p : str) (s : st) : lres unit :=
    match resolve F (s_cwd s) p with
    | Some d => if is_dir F d then LOk _ tt (St d p (s_log s)) else LErr _ s
    | None => LErr _ s
    end.

  (** What fopen gives for reading: the forms of a file; of a directory too (the first
      read fails, and read_object returns NULL as at the end of a file). *)
  Definition open (F : fs) (cwd : pos) (f : str) : option (pos * list form) :=
    match resolve F cwd f with
    | Some p => match contents F p with
                | Some l => Some (p, l)
                | None => if is_dir F p then Some (p, []) else None
                end
    | None => None
    end.

  (** A program; [ld] is load_file called in the frame of the program (with its form as the
      rest of the work), [ld1] load_file called from an inner frame. *)
  Section Exec.
    Variable F : fs.
    Variable ld : str -> st -> lres V.
    Variable ld1 : str -> st -> lres unit.
    Fixpoint exec (a : act) (s : st) : lres V :=
      match a with
      | ARet v => LOk _ v s
      | AExit => LExit _
      | AEmit e k => exec k (emit e s)
      | APwd k => exec (k (s_rec s)) s                                       (* system.c:155-158 *)
      | ACd p k => match set_current_dir F p s with                          (* system.c:160-164 *)
                   | LOk _ _ s' => exec (k true) s'
                   | LErr _ s' => exec (k false) s'
                   | LExit _ => LExit _ | LUndef _ => LUndef _ | LFuel _ => LFuel _
                   end
      | ALoad f h => match ld f s with
                     | LErr _ s' => exec h s'
                     | r => r
                     end
      | ANested f k => match ld1 f s with
                       | LOk _ _ s' => exec (k true) s'
                       | LErr _ s' => exec (k false) s'
                       | LExit _ => LExit _ | LUndef _ => LUndef _ | LFuel _ => LFuel _
                       end
      end.
  End Exec.

  (** Evaluation started by load_file when the frame pointer is not at the bottom of the
      stack: at the end of the form the return address is NULL (eval.c:455, 695) and the
      next instruction is fetched from it.  [Undef]: see C64_inner_evaluation. *)
  Definition after_inner (r : lres V) : lres V :=
    match r with
    | LOk _ _ _ => LUndef _
    | r => r
    end.

  (** The loop of load_file, system.c:108-112.  An error of read_object or check_expr goes
      to the handler when there is a continuation ([inner]), and ends the process when there
      is none (error.c:7). *)
  Fixpoint forms_loop (inner : bool) (run : act -> st -> lres V) (l : list form) (v : V) (s : st) : lres V :=
    match l with
    | [] => LOk _ v s
    | FBad :: _ => if inner then LErr _ s else LExit _
    | FGood a :: r =>
        match (if inner then after_inner (run a s) else run a s) with
        | LOk _ v' s' => forms_loop inner run r v' s'
        | LErr _ s' => LErr _ s'
        | LExit _ => LExit _ | LUndef _ => LUndef _ | LFuel _ => LFuel _
        end
    end.

  (** load_file, system.c:94-118.  [void] is the value of a file without forms. *)
  Definition load_with (F : fs) (void : V) (inner : bool) (run : act -> st -> lres V) (f : str) (s : st) : lres V :=
    let fail s := if inner then LErr _ s else LExit _ in
    match open F (s_cwd s) f with
    | None => fail s
    | Some (p, l) =>
        let old := render (s_cwd s) in
        match get_file_dir (render p) with
        | None => fail s
        | Some d =>
            match set_current_dir F d s with
            | LOk _ _ s1 =>
                match forms_loop inner run l void s1 with
                | LOk _ v s2 => match set_current_dir F old s2 with
                                | LOk _ _ s3 => LOk _ v s3
                                | _ => fail s2
                                end
                | r => r
                end
            | _ => fail s
            end
        end
    end.
  Definition forget (r : lres V) : lres unit :=
    match r with
    | LOk _ _ s => LOk _ tt s | LErr _ s => LErr _ s | LExit _ => LExit _ | LUndef _ => LUndef _ | LFuel _ => LFuel _
    end.
  Fixpoint load_file (F : fs) (void : V) (n : nat) (inner : bool) (f : str) (s : st) : lres V :=
    match n with
    | O => LFuel _
    | S n' =>
        load_with F void inner
          (exec F (load_file F void n' inner) (fun f s => forget (load_file F void n' true f s))) f s
    end.
End Act.
