(** Specification of the procedures of LibText.v and the lemmas about running them. *)
From Coq Require Import ZArith NArith Bool Ascii String List Arith Lia.
From Verif Require Import Base Heap HeapM Ast Sem Check Lists LibText.
Import ListNotations.
Local Open Scope list_scope.

(** ** Specification *)

(** Procedures live in the heap. *)
Definition good (s : store) : Prop :=
  forall l p, proc_ref l (procs_of s) = Some p -> l < List.length (heap_of s).
(** New objects and new local variables; nothing that existed has changed. *)
Definition grows (s s' : store) : Prop :=
  extends (heap_of s) (heap_of s') /\
  (forall l p, proc_ref l (procs_of s) = Some p -> proc_ref l (procs_of s') = Some p) /\
  (exists e, cells_of s' = cells_of s ++ e) /\ glob_of s' = glob_of s /\ (good s -> good s').

(** The global variables that the texts of LibText.v refer to or define. *)
Definition library_names : list string :=
  ["pair?"; "null?"; "list?"; "cons"; "$car"; "$cdr"; "$reverse"; "not"; "void"; "equal?"; "="; "+"; "append";
   "non-negative-integer?"; "caar"; "raise-argument-error"; "errorf"; "-"; "car"; "cdr"; "reverse";
   "cons*"; "first"; "second"; "third"; "fourth"; "fifth"; "sixth"; "seventh"; "eighth"; "ninth"; "tenth"; "list-ref";
   "member"; "remove"; "remove*"; "filter"; "foldl"; "foldr"; "assoc"; "index-of"; "list-set"]%string.

(** An object that is no pair. *)
Definition no_pair (h : heap) (v : val) : Prop :=
  match v with
  | VPtr l => exists c, nth_error h l = Some c /\ forall a d, c <> CPair a d
  | VUnbound => False
  | _ => True
  end.
(** Chains of pairs: [reach h v xs t] when [xs] are the elements of [v] before its tail [t]. *)
Inductive reach (h : heap) : val -> list val -> val -> Prop :=
| ReachEnd v : reach h v [] v
| ReachCons v a d xs t : pair_at h v = Some (a, d) -> reach h d xs t -> reach h v (a :: xs) t.
(** A tail that ends a chain which is no list: neither a pair nor the empty list. *)
Definition odd_tail (h : heap) (t : val) : Prop := no_pair h t /\ t <> VNull.

Section Later.
  (** The global variables that programs do not change (those of the base environment, C78). *)
  Variable names : list string.
  (** Some time after: the procedures are still there and the variables of the library have
      the values they had.  Everything else may have changed. *)
  Definition later (s s' : store) : Prop :=
    (forall l p, proc_ref l (procs_of s) = Some p -> proc_ref l (procs_of s') = Some p) /\
    (forall x, In x names -> glob_ref (Id x) (glob_of s') = glob_ref (Id x) (glob_of s)).
  (** The value of the global variable [x], from [s] on, is a procedure described by [B]. *)
  Definition has (s : store) (x : string) (B : store -> val -> Prop) : Prop :=
    exists f, glob_ref (Id x) (glob_of s) = Some f /\ f <> VUnbound /\ forall s1, later s s1 -> good s1 -> B s1 f.
End Later.

Section Spec.
  Variable names : list string.
  Local Notation later := (later names).
  Variable prim : N -> list val -> heap -> option presult.
  (** The errors that raise-argument-error and errorf raise. *)
  Variable complaint : val -> val -> err.
  Variable complaintf : val -> list val -> err.

  (** Called with [vs] in [s], the procedure [f] returns [v] (raises [y]) and only adds to
      the store. *)
  Definition returns (s : store) (f : val) (vs : list val) (v : val) : Prop :=
    exists s', apply prim s f vs (RVals [v]) s' /\ grows s s'.
  Definition raises (s : store) (f : val) (vs : list val) (y : err) : Prop :=
    exists s', apply prim s f vs (RErr y) s' /\ grows s s'.
  (** ... a new list of the elements [xs]. *)
  Definition returns_list (s : store) (f : val) (vs : list val) (xs : list val) : Prop :=
    exists v s', apply prim s f vs (RVals [v]) s' /\ grows s s' /\ list_at (heap_of s') v xs.

  (** *** What the texts rely on *)
  Definition is_null (s : store) f := forall v, returns s f [v] (of_bool (nullp v)).
  Definition is_pair (s : store) f := forall v, returns s f [v] (of_bool (pairp (heap_of s) v)).
  Definition is_not (s : store) f := forall v, returns s f [v] (of_bool (negb (truthy v))).
  Definition is_void (s : store) f := returns s f [] VVoid.
  Definition is_list (s : store) f :=
    (forall l xs, list_at (heap_of s) l xs -> returns s f [l] VTrue) /\
    (forall l xs t, reach (heap_of s) l xs t -> odd_tail (heap_of s) t -> returns s f [l] VFalse).
  Definition is_unsafe_car (s : store) f := forall v a d, pair_at (heap_of s) v = Some (a, d) -> returns s f [v] a.
  Definition is_unsafe_cdr (s : store) f := forall v a d, pair_at (heap_of s) v = Some (a, d) -> returns s f [v] d.
  Definition is_unsafe_reverse (s : store) f := forall l xs, list_at (heap_of s) l xs -> returns_list s f [l] (rev xs).
  Definition is_cons (s : store) f :=
    forall a d, exists v s', apply prim s f [a; d] (RVals [v]) s' /\ grows s s' /\ pair_at (heap_of s') v = Some (a, d).
  (** Equality of two objects, as [same] decides it. *)
  Definition is_equal (same : heap -> val -> val -> bool) (s : store) f :=
    forall a b, returns s f [a; b] (of_bool (same (heap_of s) a b)).
  Definition is_same_number (s : store) f := forall a b, returns s f [VFix a; VFix b] (of_bool (a =? b)%Z).
  Definition is_sum (s : store) f :=
    forall a b, (0 <= a)%Z -> (0 <= b)%Z -> (a + b < 2 ^ 62)%Z -> returns s f [VFix a; VFix b] (VFix (a + b)).
  Definition is_difference (s : store) f :=
    forall a b, (0 <= b)%Z -> (b <= a)%Z -> (a < 2 ^ 62)%Z -> returns s f [VFix a; VFix b] (VFix (a - b)).
  Definition is_index (s : store) f := forall v, returns s f [v] (of_bool (match v with VFix z => (0 <=? z)%Z | _ => false end)).
  Definition is_append (s : store) f :=
    forall k l xs ys, list_at (heap_of s) k xs -> list_at (heap_of s) l ys -> returns_list s f [k; l] (xs ++ ys).
  Definition is_complaint (s : store) f := forall who what v, raises s f [who; what; v] (complaint who v).
  Definition is_complaintf (s : store) f := forall who fmt vs, who <> VUnbound -> raises s f (who :: fmt :: vs) (complaintf who vs).

  (** *** What the texts are to do *)
  Definition sym (k : string) : val := VSym (list_ascii_of_string k).
  Definition is_car (s : store) f :=
    (forall v a d, pair_at (heap_of s) v = Some (a, d) -> returns s f [v] a) /\
    (forall v, no_pair (heap_of s) v -> raises s f [v] (complaint (sym "car") v)).
  Definition is_cdr (s : store) f :=
    (forall v a d, pair_at (heap_of s) v = Some (a, d) -> returns s f [v] d) /\
    (forall v, no_pair (heap_of s) v -> raises s f [v] (complaint (sym "cdr") v)).
  Definition is_caar (s : store) f :=
    forall v w a d e, pair_at (heap_of s) v = Some (w, e) -> pair_at (heap_of s) w = Some (a, d) -> returns s f [v] a.
  Definition is_reverse (s : store) f :=
    (forall l xs, list_at (heap_of s) l xs -> returns_list s f [l] (rev xs)) /\
    (forall v xs t, reach (heap_of s) v xs t -> odd_tail (heap_of s) t -> raises s f [v] (complaint (sym "reverse") v)).

  (** Comparing with [k] gives the same answer whatever is allocated. *)
  Definition steady (same : heap -> val -> val -> bool) (h : heap) (k : val) (xs : list val) : Prop :=
    forall h' x, extends h h' -> In x xs -> same h' x k = same h x k /\ same h' k x = same h k x.

  (** member returns the first element that is equal to [k] (the element, not the rest of
      the list), or #f. *)
  Definition is_member (same : heap -> val -> val -> bool) (s : store) f :=
    (forall k l xs, k <> VUnbound -> list_at (heap_of s) l xs -> steady same (heap_of s) k xs ->
       returns s f [k; l] (match find (fun x => same (heap_of s) x k) xs with Some x => x | None => VFalse end)) /\
    (forall k l xs t, k <> VUnbound -> reach (heap_of s) l xs t -> odd_tail (heap_of s) t -> steady same (heap_of s) k xs ->
       Forall (fun x => same (heap_of s) x k = false) xs -> raises s f [k; l] (complaint (sym "member") t)).
  Definition is_remove (same : heap -> val -> val -> bool) (s : store) f :=
    (forall k l xs, k <> VUnbound -> list_at (heap_of s) l xs -> steady same (heap_of s) k xs ->
       returns_list s f [k; l] (List.filter (fun x => negb (same (heap_of s) x k)) xs)) /\
    (forall k l xs t, k <> VUnbound -> reach (heap_of s) l xs t -> odd_tail (heap_of s) t -> steady same (heap_of s) k xs ->
       raises s f [k; l] (complaint (sym "remove") t)).
  (** index-of: the number of elements before the first one equal to [k], or #f. *)
  Fixpoint index (p : val -> bool) (xs : list val) : option nat :=
    match xs with
    | [] => None
    | x :: r => if p x then Some 0 else match index p r with Some n => Some (S n) | None => None end
    end.
  Definition is_index_of (same : heap -> val -> val -> bool) (s : store) f :=
    forall k l xs, k <> VUnbound -> list_at (heap_of s) l xs -> (Z.of_nat (List.length xs) < 2 ^ 62)%Z -> steady same (heap_of s) k xs ->
      returns s f [k; l] (match index (same (heap_of s) k) xs with Some n => VFix (Z.of_nat n) | None => VFalse end).
  (** list-ref: the element at a position; also in a chain that is no list, before its tail. *)
  Definition is_list_ref (s : store) f :=
    (forall l xs t n x, reach (heap_of s) l xs t -> t <> VUnbound -> (Z.of_nat (List.length xs) < 2 ^ 62)%Z -> nth_error xs n = Some x ->
       returns s f [l; VFix (Z.of_nat n)] x) /\
    (forall l xs n, list_at (heap_of s) l xs -> (Z.of_nat (List.length xs) < 2 ^ 62)%Z -> List.length xs <= n ->
       raises s f [l; VFix (Z.of_nat n)] (complaintf (sym "list-ref") [VFix (Z.of_nat n); l])) /\
    (forall l k, l <> VUnbound -> k <> VUnbound -> (forall n, k <> VFix (Z.of_nat n)) ->
       raises s f [l; k] (complaint (sym "list-ref") k)).
  (** list-set: a new list that has [v] at one position. *)
  Definition is_list_set (s : store) f :=
    (forall l xs n v, v <> VUnbound -> list_at (heap_of s) l xs -> (Z.of_nat (List.length xs) < 2 ^ 62)%Z ->
      (n < List.length xs -> returns_list s f [l; VFix (Z.of_nat n); v] (firstn n xs ++ v :: skipn (S n) xs)) /\
      (List.length xs <= n -> raises s f [l; VFix (Z.of_nat n); v] (complaintf (sym "list-set") [VFix (Z.of_nat n); l]))) /\
    (forall l k v, l <> VUnbound -> k <> VUnbound -> v <> VUnbound -> (forall n, k <> VFix (Z.of_nat n)) ->
       raises s f [l; k; v] (complaint (sym "list-set") k)).
  (** cons*: the elements in front of the last one. *)
  Definition is_cons_star (s : store) f :=
    forall vs v, Forall (fun x => x <> VUnbound) (vs ++ [v]) ->
      exists w s', apply prim s f (vs ++ [v]) (RVals [w]) s' /\ grows s s' /\ reach (heap_of s') w vs v.
  Definition is_first (s : store) f :=
    (forall l x xs, list_at (heap_of s) l (x :: xs) -> returns s f [l] x) /\
    raises s f [VNull] (complaint (sym "car") VNull) /\
    (forall v xs t, reach (heap_of s) v xs t -> odd_tail (heap_of s) t -> raises s f [v] (complaint (sym "first") v)).
  (** second, third and so on: the element at a fixed position of a list. *)
  Definition is_nth (who : string) (n : nat) (s : store) f :=
    (forall l xs x, list_at (heap_of s) l xs -> nth_error xs n = Some x -> returns s f [l] x) /\
    (forall l xs, list_at (heap_of s) l xs -> List.length xs <= n -> raises s f [l] (complaintf (sym who) [l])) /\
    (forall v xs t, reach (heap_of s) v xs t -> odd_tail (heap_of s) t -> raises s f [v] (complaint (sym who) v)).
  (** remove*: the elements that are equal to none of the keys. *)
  Definition is_remove_star (same : heap -> val -> val -> bool) (s : store) f :=
    (forall k ks l xs, list_at (heap_of s) k ks -> list_at (heap_of s) l xs -> (forall key, In key ks -> steady same (heap_of s) key xs) ->
       returns_list s f [k; l] (List.filter (fun x => negb (existsb (fun key => same (heap_of s) x key) ks)) xs)) /\
    (forall k ks t l, reach (heap_of s) k ks t -> odd_tail (heap_of s) t -> l <> VUnbound -> raises s f [k; l] (complaint (sym "remove*") k)) /\
    (forall k key ks l xs t, list_at (heap_of s) k (key :: ks) -> reach (heap_of s) l xs t -> odd_tail (heap_of s) t ->
       steady same (heap_of s) key xs -> raises s f [k; l] (complaint (sym "remove*") t)) /\
    (forall l, l <> VUnbound -> returns s f [VNull; l] l).
  (** assoc: the first entry whose key is equal to [k], or #f. *)
  Inductive entries (h : heap) : list val -> list (val * val * val) -> Prop :=
  | EntNil : entries h [] []
  | EntCons e k v es l : pair_at h e = Some (k, v) -> entries h es l -> entries h (e :: es) ((e, k, v) :: l).
  Definition is_assoc (same : heap -> val -> val -> bool) (s : store) f :=
    forall k l es en, k <> VUnbound -> list_at (heap_of s) l es -> entries (heap_of s) es en ->
      steady same (heap_of s) k (map (fun e => snd (fst e)) en) ->
      returns s f [k; l] (match find (fun e => same (heap_of s) k (snd (fst e))) en with Some e => fst (fst e) | None => VFalse end).

  (** *** Procedures as arguments

      [World]: the states of whatever the procedure [f] given by the program depends on and
      changes.  [inv w s]: the store [s] is in state [w].  [owns w i]: the local variable
      [i] belongs to it.  [step w vs v w']: in state [w], called with [vs], [f] returns [v]
      and leaves [w'].  The conditions: a step is what a call does; a call changes no pair,
      no variable of the library and no local variable but those of its own state and new
      ones; what the library allocates does not matter. *)
  Record acts (f : val) (World : Type) (inv : World -> store -> Prop) (owns : World -> nat -> Prop)
    (step : World -> list val -> val -> World -> Prop) : Prop := Acts {
    acts_call : forall w vs v w' s, step w vs v w' -> inv w s -> good s ->
      exists s', apply prim s f vs (RVals [v]) s' /\ inv w' s' /\ good s' /\ later s s' /\ pairs_kept (heap_of s) (heap_of s') /\
        List.length (cells_of s) <= List.length (cells_of s') /\
        (forall i, i < List.length (cells_of s) -> ~ owns w i -> nth_error (cells_of s') i = nth_error (cells_of s) i) /\
        (forall i, owns w' i -> owns w i \/ List.length (cells_of s) <= i);
    acts_old : forall w s i, inv w s -> owns w i -> i < List.length (cells_of s);
    acts_grows : forall w s s', inv w s -> grows s s' -> inv w s' }.
  (** A call that may have changed the world from [w] to [w']. *)
  Definition runs_to (s : store) (f : val) (vs : list val) (Q : val -> store -> Prop) : Prop :=
    exists v s', apply prim s f vs (RVals [v]) s' /\ Q v s'.

  (** The calls that filter, foldl and foldr make. *)
  Inductive asked {World} (step : World -> list val -> val -> World -> Prop) : World -> list val -> list val -> World -> Prop :=
  | AskNil w : asked step w [] [] w
  | AskCons w x xs v w1 ys w2 :
      step w [x] v w1 -> asked step w1 xs ys w2 -> asked step w (x :: xs) (if truthy v then x :: ys else ys) w2.
  Inductive folded {World} (step : World -> list val -> val -> World -> Prop) : World -> val -> list val -> val -> World -> Prop :=
  | FoldNil w a : folded step w a [] a w
  | FoldCons w a x xs b w1 c w2 :
      step w [a; x] b w1 -> b <> VUnbound -> folded step w1 b xs c w2 -> folded step w a (x :: xs) c w2.
  Inductive folded_right {World} (step : World -> list val -> val -> World -> Prop) : World -> val -> list val -> val -> World -> Prop :=
  | FoldrNil w a : folded_right step w a [] a w
  | FoldrCons w a x xs b w1 c w2 :
      folded_right step w a xs b w1 -> step w1 [b; x] c w2 -> folded_right step w a (x :: xs) c w2.

  Definition is_filter (s : store) p :=
    forall f World inv owns step, acts f World inv owns step -> f <> VUnbound ->
    forall w l xs ys w', inv w s -> list_at (heap_of s) l xs -> asked step w xs ys w' ->
      runs_to s p [f; l] (fun v s' => list_at (heap_of s') v ys /\ inv w' s' /\ good s' /\ later s s').
  Definition is_foldl (s : store) p :=
    forall f World inv owns step, acts f World inv owns step -> f <> VUnbound ->
    forall w a l xs b w', a <> VUnbound -> inv w s -> list_at (heap_of s) l xs -> folded step w a xs b w' ->
      runs_to s p [f; a; l] (fun v s' => v = b /\ inv w' s' /\ good s' /\ later s s').
  Definition is_foldr (s : store) p :=
    forall f World inv owns step, acts f World inv owns step -> f <> VUnbound ->
    forall w a l xs b w', a <> VUnbound -> inv w s -> list_at (heap_of s) l xs -> folded_right step w a xs b w' ->
      runs_to s p [f; a; l] (fun v s' => v = b /\ inv w' s' /\ good s' /\ later s s').
End Spec.

(** ** Running expressions *)
Section Laters.
Variable names : list string.
Local Notation later := (later names).
Local Notation has := (has names).
Lemma grows_refl s : grows s s.
Proof. split; [apply extends_refl|]. split; auto. split; [exists []; now rewrite app_nil_r|]. auto. Qed.
Lemma grows_trans a b c : grows a b -> grows b c -> grows a c.
Proof.
  intros (A1 & A2 & (e & A3) & A4 & A5) (B1 & B2 & (g & B3) & B4 & B5). split; [eapply extends_trans; eauto|]. split; auto.
  split; [exists (e ++ g); rewrite B3, A3, app_assoc; auto|]. split; [congruence|auto].
Qed.
Lemma grows_later s s' : grows s s' -> later s s'.
Proof. intros (_ & B & _ & D & _). split; auto. intros x _. now rewrite D. Qed.
Lemma later_refl s : later s s.
Proof. split; auto. Qed.
Lemma later_trans a b c : later a b -> later b c -> later a c.
Proof. intros [A1 A2] [B1 B2]. split; auto. intros x H. rewrite B2; auto. Qed.
Lemma grows_good s s' : grows s s' -> good s -> good s'.
Proof. intros (_ & _ & _ & _ & E). exact E. Qed.
Lemma grows_list s s' v xs : grows s s' -> list_at (heap_of s) v xs -> list_at (heap_of s') v xs.
Proof. intros (E & _). now apply list_at_ext. Qed.
Lemma grows_pair s s' v a d : grows s s' -> pair_at (heap_of s) v = Some (a, d) -> pair_at (heap_of s') v = Some (a, d).
Proof. intros (E & _). apply pair_at_kept. now apply extends_kept. Qed.
Lemma extends_reach h h' v xs t : extends h h' -> reach h v xs t -> reach h' v xs t.
Proof. intros E. induction 1; econstructor; eauto. eapply pair_at_kept; [apply extends_kept; eauto|eauto]. Qed.
Lemma extends_no_pair h h' v : extends h h' -> no_pair h v -> no_pair h' v.
Proof. intros E. destruct v; auto. intros (c & H & N). exists c. split; auto. eapply extends_nth; eauto. Qed.
Lemma grows_reach s s' v xs t : grows s s' -> reach (heap_of s) v xs t -> reach (heap_of s') v xs t.
Proof. intros (E & _). now apply extends_reach. Qed.
Lemma grows_no_pair s s' v : grows s s' -> no_pair (heap_of s) v -> no_pair (heap_of s') v.
Proof. intros (E & _). now apply extends_no_pair. Qed.
Lemma grows_odd s s' v : grows s s' -> odd_tail (heap_of s) v -> odd_tail (heap_of s') v.
Proof. intros E [A B]. split; auto. eapply grows_no_pair; eauto. Qed.
Lemma no_pair_at h v : no_pair h v -> pair_at h v = None.
Proof. destruct v; auto. intros (c & H & N). cbn. rewrite H. destruct c; auto. exfalso. eapply N; reflexivity. Qed.
Lemma no_pair_bound h v : no_pair h v -> v <> VUnbound.
Proof. intros H ->. exact H. Qed.
Lemma grows_proc s s' v p : grows s s' -> proc_at v (procs_of s) = Some p -> proc_at v (procs_of s') = Some p.
Proof. intros (_ & E & _). destruct v; try discriminate. apply E. Qed.
Lemma later_proc s s' v p : later s s' -> proc_at v (procs_of s) = Some p -> proc_at v (procs_of s') = Some p.
Proof. intros (E & _). destruct v; try discriminate. apply E. Qed.
Lemma has_later s s' x B : In x names -> later s s' -> has s x B -> has s' x B.
Proof.
  intros I L (f & G & N & H). exists f. split; [rewrite (proj2 L); auto|]. split; auto. intros s1 L1. apply H. eapply later_trans; eauto.
Qed.
End Laters.
(** The value of a local variable. *)
Definition cell_is (s : store) (i : nat) (v : val) : Prop := nth_error (cells_of s) i = Some v /\ v <> VUnbound.
Lemma grows_cell s s' i v : grows s s' -> cell_is s i v -> cell_is s' i v.
Proof.
  intros (_ & _ & (e & E) & _) [H N]. split; auto. rewrite E, nth_error_app1; auto. apply nth_error_Some. congruence.
Qed.
Lemma grows_set_heap h s : extends (heap_of s) h -> grows s (set_heap h s).
Proof.
  intros E. split; [exact E|]. split; auto. split; [exists []; cbn; now rewrite app_nil_r|]. split; auto. intros G l p H. apply extends_len in E. specialize (G l p H). cbn in *. lia.
Qed.
Lemma grows_add_cells vs s : grows s (add_cells vs s).
Proof. split; [apply extends_refl|]. split; auto. split; [exists vs; auto|]. split; auto. Qed.
Lemma grows_new_proc p s v s' : good s -> new_proc p s = (v, s') -> grows s s' /\ proc_at v (procs_of s') = Some p /\ v <> VUnbound.
Proof.
  intros G E. unfold new_proc in E. injection E as <- <-. split; [|split; [cbn; now rewrite Nat.eqb_refl|discriminate]].
  split; [apply extends_snoc|]. split.
  - intros l q H. cbn. destruct (Nat.eqb_spec (List.length (heap_of s)) l) as [<-|_]; auto. apply G in H. lia.
  - split; [exists []; cbn; now rewrite app_nil_r|]. split; auto. intros _ l q. cbn. rewrite app_length. cbn.
    destruct (Nat.eqb_spec (List.length (heap_of s)) l) as [<-|_]; [intros _; lia|]. intros H. apply G in H. lia.
Qed.
Lemma nth_split_cell s vs k v : nth_error vs k = Some v -> v <> VUnbound -> cell_is (add_cells vs s) (k + List.length (cells_of s)) v.
Proof. intros H N. split; auto. cbn. rewrite nth_error_app2 by lia. now replace (k + List.length (cells_of s) - List.length (cells_of s)) with k by lia. Qed.

Section Run.
  Variable names : list string.
  Local Notation later := (later names).
  Local Notation has := (has names).
  Variable prim : N -> list val -> heap -> option presult.
  Definition run t r s e (Q : res -> store -> Prop) : Prop := exists o s', eval prim t r s e o s' /\ Q o s'.
  Definition runseq t r s es (Q : res -> store -> Prop) : Prop := exists o s', evseq prim t r s es o s' /\ Q o s'.
  Definition runargs t r s es (Q : list val + err -> store -> Prop) : Prop := exists o s', evargs prim t r s es o s' /\ Q o s'.
  Definition runap s f vs (Q : res -> store -> Prop) : Prop := exists o s', apply prim s f vs o s' /\ Q o s'.

  Lemma run_const t r s v (Q : res -> store -> Prop) : Q (RVals [v]) s -> run t r s (EConst v) Q.
  Proof. intros H. exists (RVals [v]), s. split; auto. constructor. Qed.
  Lemma run_local t r s x i v (Q : res -> store -> Prop) :
    lookup_env x r = Some i -> cell_is s i v -> Q (RVals [v]) s -> run t r s (EVar x) Q.
  Proof. intros L [C N] H. exists (RVals [v]), s. split; auto. eapply EvLocal; eauto. Qed.
  Lemma run_if t r s a b c (Q : res -> store -> Prop) :
    run t r s a (fun o s1 => match o with
                             | RVals [v] => if truthy v then run t r s1 b Q else run t r s1 c Q
                             | RVals _ => False
                             | RErr y => Q (RErr y) s1
                             end) ->
    run t r s (EIf a b c) Q.
  Proof.
    intros (o & s1 & A & H). destruct o as [[|v [|w vs]]|y]; try contradiction.
    - destruct v; cbn [truthy] in H; destruct H as (o2 & s2 & B & HQ); exists o2, s2; (split; [|exact HQ]);
        first [eapply EvIfFalse; eassumption | eapply EvIfTrue; [eassumption|discriminate|eassumption]].
    - exists (RErr y), s1. split; auto. now apply EvIfErr.
  Qed.
  Lemma runargs_nil t r s (Q : list val + err -> store -> Prop) : Q (inl []) s -> runargs t r s [] Q.
  Proof. intros H. exists (inl []), s. split; auto. constructor. Qed.
  Lemma runargs_cons t r s e es (Q : list val + err -> store -> Prop) :
    run t r s e (fun o s1 => match o with
                             | RVals [v] => runargs t r s1 es (fun a s2 => match a with inl vs => Q (inl (v :: vs)) s2 | inr y => Q (inr y) s2 end)
                             | RVals _ => False
                             | RErr y => Q (inr y) s1
                             end) ->
    runargs t r s (e :: es) Q.
  Proof.
    intros (o & s1 & A & H). destruct o as [[|v [|w vs]]|y]; try contradiction.
    - destruct H as ([vs|y] & s2 & B & HQ); [exists (inl (v :: vs)), s2|exists (inr y), s2]; (split; [|exact HQ]).
      + eapply EaCons; [apply E1Val; exact A|exact B].
      + eapply EaErrRest; [apply E1Val; exact A|exact B].
    - exists (inr y), s1. split; auto. apply EaErr. now apply E1Err.
  Qed.
  (** A call of a procedure in a local variable. *)
  Lemma run_call_local t r s x i f es (Q : res -> store -> Prop) :
    lookup_env x r = Some i -> cell_is s i f ->
    runargs t r s es (fun a s2 => match a with inl vs => runap s2 f vs Q | inr y => Q (RErr y) s2 end) ->
    run t r s (EApp (EVar x) es) Q.
  Proof.
    intros L [C N] ([vs|y] & s2 & A & H).
    - destruct H as (o & s3 & B & HQ). exists o, s3. split; auto. eapply EvApp; [apply E1Val; eapply EvLocal; eauto|exact A|exact B].
    - exists (RErr y), s2. split; auto. eapply EvAppErrA; [apply E1Val; eapply EvLocal; eauto|exact A].
  Qed.
  (** A call of a procedure of the library. *)
  Lemma run_call t r s s0 x B es (Q : res -> store -> Prop) :
    has s0 x B -> lookup_env (Id x) r = None -> In x names -> later s0 s ->
    runargs t r s es (fun a s2 => match a with
                                  | inl vs => later s0 s2 /\ good s2 /\ (forall f, B s2 f -> runap s2 f vs Q)
                                  | inr y => Q (RErr y) s2
                                  end) ->
    run t r s (EApp (EVar (Id x)) es) Q.
  Proof.
    intros (f & G & N & HB) L I LT ([vs|y] & s2 & A & H).
    - destruct H as (L2 & G2 & H). destruct (H f (HB s2 L2 G2)) as (o & s3 & C & HQ). exists o, s3. split; auto.
      eapply EvApp; [apply E1Val; eapply EvGlobal; eauto; rewrite (proj2 LT); auto|exact A|exact C].
    - exists (RErr y), s2. split; auto. eapply EvAppErrA; [apply E1Val; eapply EvGlobal; eauto; rewrite (proj2 LT); auto|exact A].
  Qed.
  Lemma runseq_one t r s e (Q : res -> store -> Prop) : run t r s e Q -> runseq t r s [e] Q.
  Proof. intros (o & s1 & A & H). exists o, s1. split; auto. now constructor. Qed.
  Lemma runseq_cons t r s e e' es (Q : res -> store -> Prop) :
    run t r s e (fun o s1 => match o with RVals _ => runseq t r s1 (e' :: es) Q | RErr y => Q (RErr y) s1 end) -> runseq t r s (e :: e' :: es) Q.
  Proof.
    intros ([vs|y] & s1 & A & H).
    - destruct H as (o & s2 & B & HQ). exists o, s2. split; auto. eapply EsCons; eauto.
    - exists (RErr y), s1. split; auto. now apply EsErr.
  Qed.
  Lemma run_let0 t r s body (Q : res -> store -> Prop) : runseq t r (add_cells [] s) body Q -> run t r s (ELet [] body) Q.
  Proof. intros (o & s1 & A & H). exists o, s1. split; auto. eapply EvLet; [constructor|exact A]. Qed.
  (** Calls of closures. *)
  Lemma runap_clo s f vs r fm body (Q : res -> store -> Prop) :
    proc_at f (procs_of s) = Some (PClo [(Formals fm None, body)] r) -> List.length vs = List.length fm ->
    runseq false (bind_env fm (List.length (cells_of s)) r) (add_cells vs s) body Q ->
    runap s f vs Q.
  Proof.
    intros P LN (o & s1 & A & H). exists o, s1. split; auto.
    eapply ApClo; [exact P|cbn [select accepts fst rest req]; unfold accepts; cbn; rewrite LN, Nat.eqb_refl; reflexivity|reflexivity|exact A].
  Qed.
  (** The same with the arguments in new variables. *)
  Lemma runap_clo1 s f x v r body (Q : res -> store -> Prop) :
    proc_at f (procs_of s) = Some (PClo [(Formals [x] None, body)] r) -> v <> VUnbound ->
    (forall s1 b, grows s s1 -> List.length (cells_of s) <= b -> cell_is s1 b v -> runseq false ((x, b) :: r) s1 body Q) ->
    runap s f [v] Q.
  Proof.
    intros P N H. eapply runap_clo; [exact P|reflexivity|]. apply H; [apply grows_add_cells|lia|].
    exact (nth_split_cell s [v] 0 v eq_refl N).
  Qed.
  Lemma runap_clo2 s f x y v w r body (Q : res -> store -> Prop) :
    proc_at f (procs_of s) = Some (PClo [(Formals [x; y] None, body)] r) -> v <> VUnbound -> w <> VUnbound ->
    (forall s1 b c, grows s s1 -> List.length (cells_of s) <= b -> List.length (cells_of s) <= c -> cell_is s1 b v -> cell_is s1 c w ->
       runseq false ((y, c) :: (x, b) :: r) s1 body Q) ->
    runap s f [v; w] Q.
  Proof.
    intros P N M H. eapply runap_clo; [exact P|reflexivity|]. apply H; [apply grows_add_cells|lia|lia| |].
    - exact (nth_split_cell s [v; w] 0 v eq_refl N).
    - exact (nth_split_cell s [v; w] 1 w eq_refl M).
  Qed.
  Lemma runap_clo3 s f x y z v w u r body (Q : res -> store -> Prop) :
    proc_at f (procs_of s) = Some (PClo [(Formals [x; y; z] None, body)] r) -> v <> VUnbound -> w <> VUnbound -> u <> VUnbound ->
    (forall s1 b c d, grows s s1 -> List.length (cells_of s) <= b -> List.length (cells_of s) <= c -> List.length (cells_of s) <= d ->
       cell_is s1 b v -> cell_is s1 c w -> cell_is s1 d u ->
       runseq false ((z, d) :: (y, c) :: (x, b) :: r) s1 body Q) ->
    runap s f [v; w; u] Q.
  Proof.
    intros P N M K H. eapply runap_clo; [exact P|reflexivity|]. apply H; [apply grows_add_cells|lia|lia|lia| | |].
    - exact (nth_split_cell s [v; w; u] 0 v eq_refl N).
    - exact (nth_split_cell s [v; w; u] 1 w eq_refl M).
    - exact (nth_split_cell s [v; w; u] 2 u eq_refl K).
  Qed.
  (** A procedure with one argument and a list of further ones. *)
  Lemma new_list_at vs : forall h, list_at (snd (new_list vs h)) (fst (new_list vs h)) vs.
  Proof.
    induction vs as [|v vs IH]; intros h; [constructor|]. cbn [new_list fst snd list_cells].
    set (c := CPair v (match vs with [] => VNull | _ => VPtr (S (List.length h)) end)).
    assert (E : h ++ c :: list_cells (S (List.length h)) vs = snd (new_list vs (h ++ [c]))).
    { cbn. rewrite app_length. cbn. now rewrite Nat.add_1_r, <- app_assoc. }
    rewrite E. econstructor; [|].
    - rewrite <- E, nth_error_app2, Nat.sub_diag by lia. reflexivity.
    - specialize (IH (h ++ [c])). cbn [new_list fst] in IH. rewrite app_length in IH. cbn [List.length] in IH. rewrite Nat.add_1_r in IH. exact IH.
  Qed.
  Lemma new_list_bound vs h : fst (new_list vs h) <> VUnbound.
  Proof. destruct vs; discriminate. Qed.
  Lemma runap_rest1 s f x y v vs r body (Q : res -> store -> Prop) :
    proc_at f (procs_of s) = Some (PClo [(Formals [x] (Some y), body)] r) -> v <> VUnbound ->
    (forall s1 b c l, grows s s1 -> cell_is s1 b v -> cell_is s1 c l -> list_at (heap_of s1) l vs ->
       runseq false ((y, c) :: (x, b) :: r) s1 body Q) ->
    runap s f (v :: vs) Q.
  Proof.
    intros P N H. pose proof (new_list_at vs (heap_of s)) as NL. pose proof (new_list_bound vs (heap_of s)) as NB.
    set (s1 := Store (snd (new_list vs (heap_of s))) (procs_of s) (cells_of s ++ [v; fst (new_list vs (heap_of s))]) (glob_of s)).
    destruct (H s1 (List.length (cells_of s)) (List.length (cells_of s) + 1) (fst (new_list vs (heap_of s)))) as (o & s2 & A & HQ).
    - split; [cbn; apply extends_app|]. split; auto. split; [eexists; reflexivity|]. split; auto. intros G l p K. specialize (G l p K). cbn. rewrite app_length. lia.
    - split; auto. cbn. now rewrite nth_error_app2, Nat.sub_diag by lia.
    - split; auto. cbn [cells_of s1]. rewrite nth_error_app2 by lia. now replace (List.length (cells_of s) + 1 - List.length (cells_of s)) with 1 by lia.
    - exact NL.
    - exists o, s2. split; auto. eapply ApClo; [exact P|reflexivity|reflexivity|exact A].
  Qed.
  Lemma run_lam t r s fm body (Q : res -> store -> Prop) :
    good s -> (forall v s1, grows s s1 -> proc_at v (procs_of s1) = Some (PClo [(fm, body)] r) -> v <> VUnbound -> Q (RVals [v]) s1) ->
    run t r s (ELam fm body) Q.
  Proof.
    intros G H. destruct (new_proc (PClo [(fm, body)] r) s) as [v s1] eqn:E. destruct (grows_new_proc _ _ _ _ G E) as (A & B & C).
    exists (RVals [v]), s1. split; [now constructor|auto].
  Qed.
  (** A local procedure, as the loops of the library are. *)
  Lemma run_loop t r s x fm lb body (Q : res -> store -> Prop) :
    good s ->
    (forall v s1, grows s s1 -> cell_is s1 (List.length (cells_of s)) v ->
       proc_at v (procs_of s1) = Some (PClo [(fm, lb)] ((x, List.length (cells_of s)) :: r)) ->
       runseq t ((x, List.length (cells_of s)) :: r) s1 body Q) ->
    run t r s (ELetrec [([x], ELam fm lb)] body) Q.
  Proof.
    intros G H. set (b := List.length (cells_of s)) in *. set (r1 := (x, b) :: r) in *. set (s0 := add_cells [VUnbound] s).
    destruct (new_proc (PClo [(fm, lb)] r1) s0) as [v s1] eqn:E.
    assert (G0 : good s0) by exact G. destruct (grows_new_proc _ _ _ _ G0 E) as (A & B & C).
    assert (CE : cells_of s1 = cells_of s ++ [VUnbound]) by (unfold new_proc in E; injection E as _ <-; reflexivity).
    set (s2 := set_cell b v s1).
    assert (CS : cells_of s2 = cells_of s ++ [v]).
    { unfold s2, set_cell. cbn. rewrite CE. unfold b. clear. induction (cells_of s) as [|c l IH]; cbn; [reflexivity|now rewrite IH]. }
    assert (GR : grows s s2).
    { destruct A as (A1 & A2 & A3 & A4 & A5). split; [exact A1|]. split; [exact A2|]. split; [exists [v]; exact CS|]. split; [exact A4|exact A5]. }
    assert (CI : cell_is s2 b v).
    { split; auto. rewrite CS. rewrite nth_error_app2 by (unfold b; lia). unfold b. now rewrite Nat.sub_diag. }
    destruct (H v s2 GR CI B) as (o & s3 & D & HQ). exists o, s3. split; auto.
    eapply EvLetrec; [reflexivity|reflexivity| |exact D]. cbn [List.concat map fst app List.length repeat bind_env].
    eapply ErCons; [apply EvLam; exact E|reflexivity|]. cbn [List.length seq set_cells]. constructor.
  Qed.
  Lemma runap_returns s f vs v (Q : res -> store -> Prop) : returns prim s f vs v -> (forall s', grows s s' -> Q (RVals [v]) s') -> runap s f vs Q.
  Proof. intros (s' & A & G) H. exists (RVals [v]), s'. split; auto. Qed.
  Lemma runap_raises s f vs y (Q : res -> store -> Prop) : raises prim s f vs y -> (forall s', grows s s' -> Q (RErr y) s') -> runap s f vs Q.
  Proof. intros (s' & A & G) H. exists (RErr y), s'. split; auto. Qed.
  Lemma run_imp t r s e (Q Q' : res -> store -> Prop) : run t r s e Q -> (forall o s', Q o s' -> Q' o s') -> run t r s e Q'.
  Proof. intros (o & s1 & A & B) H. exists o, s1. auto. Qed.
  Lemma runap_imp s f vs (Q Q' : res -> store -> Prop) : runap s f vs Q -> (forall o s', Q o s' -> Q' o s') -> runap s f vs Q'.
  Proof. intros (o & s1 & A & B) H. exists o, s1. auto. Qed.
  Lemma returns_run s f vs v : runap s f vs (fun o s' => o = RVals [v] /\ grows s s') -> returns prim s f vs v.
  Proof. intros (o & s' & A & -> & G). exists s'. auto. Qed.
  Lemma raises_run s f vs v : runap s f vs (fun o s' => o = RErr v /\ grows s s') -> raises prim s f vs v.
  Proof. intros (o & s' & A & -> & G). exists s'. auto. Qed.
  Lemma returns_list_run s f vs xs :
    runap s f vs (fun o s' => grows s s' /\ match o with RVals [v] => list_at (heap_of s') v xs | _ => False end) -> returns_list prim s f vs xs.
  Proof. intros (o & s' & A & G & H). destruct o as [[|v [|]]|]; try contradiction. exists v, s'. auto. Qed.
  (** A definition of a procedure at top level. *)
  Lemma define_proc s x fm body v s1 :
    new_proc (PClo [(fm, body)] []) s = (v, s1) -> eval prim true [] s (EDefine [Id x] (ELam fm body)) (RVals [VVoid]) (set_glob (Id x) v s1).
  Proof. intros E. change (set_glob (Id x) v s1) with (set_globs [Id x] [v] s1). eapply EvDefine; [now constructor|reflexivity]. Qed.
End Run.
(** ** Calls of procedures that the program gives *)
Section Held.
  Variable names : list string.
  Local Notation later := (later names).
  Variable World : Type.
  Variable owns : World -> nat -> Prop.
  Definition held (w w' : World) (s s' : store) : Prop :=
    later s s' /\ good s' /\ pairs_kept (heap_of s) (heap_of s') /\ List.length (cells_of s) <= List.length (cells_of s') /\
    (forall i, i < List.length (cells_of s) -> ~ owns w i -> nth_error (cells_of s') i = nth_error (cells_of s) i) /\
    (forall i, owns w' i -> owns w i \/ List.length (cells_of s) <= i).
  Lemma held_refl w s : good s -> held w w s s.
  Proof. intros G. split; [apply later_refl|]. split; auto. split; [apply HeapM.kept_refl|]. repeat split; auto. Qed.
  Lemma held_trans w w1 w2 a b c : held w w1 a b -> held w1 w2 b c -> held w w2 a c.
  Proof.
    intros (A1 & A2 & A3 & A4 & A5 & A6) (B1 & B2 & B3 & B4 & B5 & B6). split; [eapply later_trans; eauto|]. split; auto.
    split; [eapply HeapM.kept_trans; eauto|]. split; [lia|]. split.
    - intros i L N. rewrite B5; [apply A5; auto|lia|]. intros O. destruct (A6 i O); [contradiction|lia].
    - intros i O. destruct (B6 i O) as [H|H]; [apply A6 in H; destruct H; auto|right; lia].
  Qed.
  Lemma held_grows w a b : good a -> grows a b -> held w w a b.
  Proof.
    intros GA G. split; [now apply grows_later|]. split; [eapply grows_good; eauto|]. destruct G as (E & _ & (e & C) & _).
    split; [now apply extends_kept|]. rewrite C, app_length. split; [lia|]. split; auto. intros i L _. now rewrite nth_error_app1.
  Qed.
  Lemma held_cell w w' a b i v : held w w' a b -> ~ owns w i -> cell_is a i v -> cell_is b i v /\ ~ owns w' i.
  Proof.
    intros (_ & _ & _ & _ & C & O) N [H B]. assert (L : i < List.length (cells_of a)) by (apply nth_error_Some; congruence).
    split; [split; auto; rewrite C; auto|]. intros K. destruct (O i K); [contradiction|lia].
  Qed.
  Lemma held_list w w' a b v xs : held w w' a b -> list_at (heap_of a) v xs -> list_at (heap_of b) v xs.
  Proof. intros (_ & _ & K & _). now apply list_at_kept. Qed.
  Lemma held_pair w w' a b v x d : held w w' a b -> pair_at (heap_of a) v = Some (x, d) -> pair_at (heap_of b) v = Some (x, d).
  Proof. intros (_ & _ & K & _). now apply pair_at_kept. Qed.
  Lemma held_proc w w' a b v p : held w w' a b -> proc_at v (procs_of a) = Some p -> proc_at v (procs_of b) = Some p.
  Proof. intros (L & _). eapply later_proc; eauto. Qed.
  Lemma grows_len s s' : grows s s' -> List.length (cells_of s) <= List.length (cells_of s').
  Proof. intros (_ & _ & (e & C) & _). rewrite C, app_length. lia. Qed.
End Held.
(** ** The store in which the texts have been evaluated *)
Section Loaded.
  Variable lit : obj -> val.
  (** The value of the variable that the text [t] defines is the procedure that the text
      gives, without local variables. *)
  Definition loaded (s : store) (t : string) : Prop :=
    exists x fm body f,
      code_of lit t = EDefine [Id x] (ELam fm body) /\
      glob_ref (Id x) (glob_of s) = Some f /\ f <> VUnbound /\ proc_at f (procs_of s) = Some (PClo [(fm, body)] []).
  (** The objects of the literals; strings are arbitrary objects. *)
  Definition literals : Prop :=
    lit ONull = VNull /\ lit OFalse = VFalse /\ (forall z, lit (OFix z) = VFix z) /\ (forall n, lit (OSym n) = VSym n).
End Loaded.

(** ** Starting the interpreter *)

(** What the texts rely on, and what they define. *)
Definition base_names : list string :=
  ["pair?"; "null?"; "list?"; "cons"; "$car"; "$cdr"; "$reverse"; "not"; "void"; "equal?"; "="; "+"; "append";
   "non-negative-integer?"; "caar"; "raise-argument-error"; "errorf"; "-"]%string.
Definition boot_texts : list string :=
  [car_text; cdr_text; reverse_text; cons_star_text; first_text; second_text; third_text; fourth_text; fifth_text; sixth_text;
   seventh_text; eighth_text; ninth_text; tenth_text; list_ref_text; member_text; remove_text; remove_star_text; filter_text;
   foldl_text; foldr_text; assoc_text; index_of_text; list_set_text].
Definition defined_names : list string :=
  ["car"; "cdr"; "reverse"; "cons*"; "first"; "second"; "third"; "fourth"; "fifth"; "sixth"; "seventh"; "eighth"; "ninth"; "tenth"; "list-ref";
   "member"; "remove"; "remove*"; "filter"; "foldl"; "foldr"; "assoc"; "index-of"; "list-set"]%string.

Section Boot.
  Variable prim : N -> list val -> heap -> option presult.
  Variable lit : obj -> val.
  Variable same : heap -> val -> val -> bool.
  Variable complaint : val -> val -> err.
  Variable complaintf : val -> list val -> err.
  (** The procedures that are there before, as long as their variables keep their values. *)
  Record relies (s : store) : Prop := Relies {
    on_pair : has base_names s "pair?" (is_pair prim);
    on_null : has base_names s "null?" (is_null prim);
    on_list : has base_names s "list?" (is_list prim);
    on_cons : has base_names s "cons" (is_cons prim);
    on_car : has base_names s "$car" (is_unsafe_car prim);
    on_cdr : has base_names s "$cdr" (is_unsafe_cdr prim);
    on_reverse : has base_names s "$reverse" (is_unsafe_reverse prim);
    on_not : has base_names s "not" (is_not prim);
    on_void : has base_names s "void" (is_void prim);
    on_equal : has base_names s "equal?" (is_equal prim same);
    on_same : has base_names s "=" (is_same_number prim);
    on_sum : has base_names s "+" (is_sum prim);
    on_append : has base_names s "append" (is_append prim);
    on_index : has base_names s "non-negative-integer?" (is_index prim);
    on_caar : has base_names s "caar" (is_caar prim);
    on_complaint : has base_names s "raise-argument-error" (is_complaint prim complaint);
    on_complaintf : has base_names s "errorf" (is_complaintf prim complaintf);
    on_difference : has base_names s "-" (is_difference prim) }.
  (** Evaluating texts one after the other at top level. *)
  Inductive loads : store -> list string -> store -> Prop :=
  | LoadNil s : loads s [] s
  | LoadCons s t s1 ts s2 : eval prim true [] s (code_of lit t) (RVals [VVoid]) s1 -> loads s1 ts s2 -> loads s (t :: ts) s2.
  (** [s1] is what evaluating the texts makes of [s0]. *)
  Definition booted (s0 s1 : store) : Prop := literals lit /\ good s0 /\ relies s0 /\ loads s0 boot_texts s1.

  (** *** Loading *)
  Definition shaped (t x : string) : Prop := exists fm body, code_of lit t = EDefine [Id x] (ELam fm body).
  Lemma boot_shaped : Forall2 shaped boot_texts defined_names.
  Proof.
    unfold boot_texts, defined_names.
    repeat match goal with
    | |- Forall2 _ [] [] => constructor
    | |- Forall2 _ (?t :: _) _ =>
        constructor; [let e := eval vm_compute in (code_of lit t) in
          match e with EDefine _ (ELam ?fm ?body) => exists fm, body; vm_cast_no_check (eq_refl e) end|]
    end.
  Qed.
  Lemma glob_ref_set x y v g : glob_ref x (glob_set y v g) = if ident_eqb y x then Some v else glob_ref x g.
  Proof.
    induction g as [|[z w] g IH]; cbn; [reflexivity|]. destruct (ident_eqb_spec z y) as [->|D]; cbn; [destruct (ident_eqb y x); reflexivity|].
    rewrite IH. destruct (ident_eqb_spec z x) as [->|D2]; auto. destruct (ident_eqb_spec y x); congruence.
  Qed.
  Lemma define_inv s x fm body o s1 :
    eval prim true [] s (EDefine [Id x] (ELam fm body)) (RVals o) s1 ->
    exists v s2, new_proc (PClo [(fm, body)] []) s = (v, s2) /\ s1 = set_glob (Id x) v s2.
  Proof.
    intros H. inversion H; subst. match goal with K : eval _ _ _ _ (ELam _ _) _ _ |- _ => inversion K; subst end. eauto.
  Qed.
  Lemma loads_all ts xs : Forall2 shaped ts xs -> NoDup xs -> forall s s', good s -> loads s ts s' ->
    good s' /\ (forall l p, proc_ref l (procs_of s) = Some p -> proc_ref l (procs_of s') = Some p) /\
    (forall y, ~ In y xs -> glob_ref (Id y) (glob_of s') = glob_ref (Id y) (glob_of s)) /\ Forall (loaded lit s') ts.
  Proof.
    induction 1 as [|t x ts xs (fm & body & E) F IH]; intros ND s s' G L.
    - inversion L; subst. repeat split; auto.
    - inversion L as [|? ? s1 ? ? EV L']; subst. inversion ND as [|? ? NI ND']; subst. rewrite E in EV. apply define_inv in EV. destruct EV as (v & s2 & NP & ->).
      destruct (grows_new_proc _ _ _ _ G NP) as (GR & PV & NV).
      assert (G2 : good (set_glob (Id x) v s2)) by exact (grows_good _ _ GR G).
      destruct (IH ND' _ _ G2 L') as (I1 & I2 & I3 & I4). split; auto. split; [|split].
      + intros l p H. apply I2. cbn. apply GR, H.
      + intros y N. cbn in N. rewrite I3 by tauto. cbn. rewrite glob_ref_set. destruct (ident_eqb_spec (Id x) (Id y)) as [K|K].
        * injection K as <-. tauto.
        * now rewrite (proj1 (proj2 (proj2 (proj2 GR)))).
      + constructor; auto. exists x, fm, body, v. split; auto. split; [rewrite I3 by auto; cbn; now rewrite glob_ref_set, ident_eqb_refl|]. split; auto.
        destruct v; try discriminate. apply I2. exact PV.
  Qed.
  Lemma loads_some ts xs : Forall2 shaped ts xs -> forall s, exists s', loads s ts s'.
  Proof.
    induction 1 as [|t x ts xs (fm & body & E) F IH]; intros s; [exists s; constructor|].
    destruct (new_proc (PClo [(fm, body)] []) s) as [v s1] eqn:NP. destruct (IH (set_glob (Id x) v s1)) as [s2 L].
    exists s2. econstructor; [rewrite E; exact (define_proc prim s x fm body v s1 NP)|exact L].
  Qed.
  Fixpoint distinct (xs : list string) : bool :=
    match xs with [] => true | x :: r => negb (existsb (String.eqb x) r) && distinct r end.
  Lemma in_existsb x ys : In x ys -> existsb (String.eqb x) ys = true.
  Proof. intros H. apply existsb_exists. exists x. split; auto. apply String.eqb_refl. Qed.
  Lemma distinct_nodup xs : distinct xs = true -> NoDup xs.
  Proof.
    induction xs as [|x xs IH]; cbn; [constructor|]. intros H. apply andb_prop in H. destruct H as [A B]. constructor; auto.
    intros H. rewrite in_existsb in A by auto. discriminate.
  Qed.
  Lemma defined_once : NoDup defined_names.
  Proof. apply distinct_nodup. reflexivity. Qed.
  Lemma base_undefined x : In x base_names -> ~ In x defined_names.
  Proof.
    intros I H. assert (F : forallb (fun x => negb (existsb (String.eqb x) defined_names)) base_names = true) by reflexivity.
    rewrite forallb_forall in F. specialize (F x I). rewrite in_existsb in F by auto. discriminate.
  Qed.
  Lemma names_split : library_names = base_names ++ defined_names.
  Proof. reflexivity. Qed.
  Lemma booted_has s0 s1 x B : booted s0 s1 -> has base_names s0 x B -> In x base_names -> has library_names s1 x B.
  Proof.
    intros (_ & G & _ & L) (f & GR & N & H) I. destruct (loads_all _ _ boot_shaped defined_once _ _ G L) as (I1 & I2 & I3 & _).
    exists f. split; [rewrite I3; auto using base_undefined|]. split; auto.
    intros s [L1 L2] G1. apply H; auto. split; auto. intros y Iy. rewrite L2, I3; auto using base_undefined. rewrite names_split. apply in_or_app. now left.
  Qed.
  Lemma booted_loaded s0 s1 t : booted s0 s1 -> In t boot_texts -> loaded lit s1 t.
  Proof.
    intros (_ & G & _ & L) I. destruct (loads_all _ _ boot_shaped defined_once _ _ G L) as (_ & _ & _ & F). rewrite Forall_forall in F. auto.
  Qed.
End Boot.
