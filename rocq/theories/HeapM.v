(** Programs over the object heap: results, primitive accesses, and when two
    heaps agree. *)
From Coq Require Import ZArith NArith Bool Ascii String List Lia.
From Verif Require Import Base Heap.
Import ListNotations.

(** Errors raised with [raise-argument-error] or another raise form of the
    prelude. *)
Inductive herr : Type :=
| EArg (who : string) (v : val)
| ERange (who : string) (v : val)
| EUnbound (id : string)
| EArity (who : string)
| EOther (who : string) (vs : list val).

(** [HUndef]: C undefined behaviour (access to an object of the wrong type or
    outside an object).  [HFuel]: the fuel of the model ran out (the program may
    diverge). *)
Inductive hres (A : Type) : Type :=
| HOk (a : A) (h : heap)
| HErr (e : herr) (h : heap)
| HUndef
| HFuel.
Arguments HOk {A}. Arguments HErr {A}. Arguments HUndef {A}. Arguments HFuel {A}.

Definition M (A : Type) := heap -> hres A.
Definition ret {A} (a : A) : M A := fun h => HOk a h.
Definition bind {A B} (m : M A) (k : A -> M B) : M B := fun h =>
  match m h with
  | HOk a h' => k a h'
  | HErr e h' => HErr e h'
  | HUndef => HUndef
  | HFuel => HFuel
  end.
Definition fail {A} (e : herr) : M A := fun h => HErr e h.
Declare Scope m_scope.
Delimit Scope m_scope with m.
Notation "x <- a ;; b" := (bind a (fun x => b)) (at level 60, a at next level, right associativity) : m_scope.
Notation "a ;;; b" := (bind a (fun _ => b)) (at level 60, right associativity) : m_scope.

Definition pair_at (h : heap) (v : val) : option (val * val) :=
  match v with
  | VPtr l => match nth_error h l with Some (CPair a d) => Some (a, d) | _ => None end
  | _ => None
  end.
Definition pairp (h : heap) (v : val) : bool := match pair_at h v with Some _ => true | None => false end.
Definition nullp (v : val) : bool := match v with VNull => true | _ => false end.

Fixpoint upd_cell (l : nat) (c : cell) (h : heap) : heap :=
  match h, l with
  | [], _ => []
  | _ :: r, O => c :: r
  | x :: r, S m => x :: upd_cell m c r
  end.

(** [minim_car], [minim_cdr] without check (minim.h). *)
Definition m_car (v : val) : M val := fun h =>
  match pair_at h v with Some (a, _) => HOk a h | None => HUndef end.
Definition m_cdr (v : val) : M val := fun h =>
  match pair_at h v with Some (_, d) => HOk d h | None => HUndef end.
(** Mcons, list.c:7-13. *)
Definition m_cons (a d : val) : M val := fun h => HOk (VPtr (length h)) (h ++ [CPair a d]).
(** [minim_cdr(p) = d], [minim_car(p) = a]. *)
Definition m_set_cdr (p d : val) : M unit := fun h =>
  match p, pair_at h p with
  | VPtr l, Some (a, _) => HOk tt (upd_cell l (CPair a d) h)
  | _, _ => HUndef
  end.
Definition m_set_car (p a : val) : M unit := fun h =>
  match p, pair_at h p with
  | VPtr l, Some (_, d) => HOk tt (upd_cell l (CPair a d) h)
  | _, _ => HUndef
  end.

(** ** Relations between heaps *)

(** Nothing that existed has changed. *)
Definition extends (h h' : heap) : Prop := exists e, h' = h ++ e.
(** No existing pair has changed. *)
Definition pairs_kept (h h' : heap) : Prop :=
  length h <= length h' /\
  forall l a d, nth_error h l = Some (CPair a d) -> nth_error h' l = Some (CPair a d).

(** A proper list of values in the heap. *)
Inductive list_at (h : heap) : val -> list val -> Prop :=
| LNil : list_at h VNull []
| LCons l a d xs :
    nth_error h l = Some (CPair a d) -> list_at h d xs -> list_at h (VPtr l) (a :: xs).

Lemma extends_refl h : extends h h.
Proof. exists []; now rewrite app_nil_r. Qed.
Lemma extends_trans a b c : extends a b -> extends b c -> extends a c.
Proof. intros [e ->] [f ->]. exists (e ++ f). now rewrite app_assoc. Qed.
Lemma extends_snoc h c : extends h (h ++ [c]).
Proof. exists [c]; auto. Qed.
Lemma extends_app h e : extends h (h ++ e).
Proof. exists e; auto. Qed.
Lemma extends_nth h h' l c : extends h h' -> nth_error h l = Some c -> nth_error h' l = Some c.
Proof.
  intros [e ->] H. rewrite nth_error_app1; auto. apply nth_error_Some. congruence.
Qed.
Lemma extends_len h h' : extends h h' -> length h <= length h'.
Proof. intros [e ->]. rewrite app_length. lia. Qed.
Lemma extends_kept h h' : extends h h' -> pairs_kept h h'.
Proof. intros H; split; [now apply extends_len|]. intros; eapply extends_nth; eauto. Qed.
Lemma kept_refl h : pairs_kept h h.
Proof. split; auto. Qed.
Lemma kept_trans a b c : pairs_kept a b -> pairs_kept b c -> pairs_kept a c.
Proof. intros [? ?] [? ?]; split; [lia|auto]. Qed.
Lemma kept_snoc h c : pairs_kept h (h ++ [c]).
Proof. apply extends_kept, extends_snoc. Qed.

Lemma pair_at_kept h h' v a d : pairs_kept h h' -> pair_at h v = Some (a, d) -> pair_at h' v = Some (a, d).
Proof.
  intros [_ H] E. destruct v; simpl in *; try discriminate.
  destruct (nth_error h l) as [[]|] eqn:E2; try discriminate.
  rewrite (H _ _ _ E2). auto.
Qed.

Lemma list_at_kept h h' v xs : pairs_kept h h' -> list_at h v xs -> list_at h' v xs.
Proof. intros K; induction 1; econstructor; eauto. apply K; auto. Qed.
Lemma list_at_ext h h' v xs : extends h h' -> list_at h v xs -> list_at h' v xs.
Proof. intros; eapply list_at_kept; eauto using extends_kept. Qed.

Lemma list_at_fun h v xs ys : list_at h v xs -> list_at h v ys -> xs = ys.
Proof.
  intros H; revert ys; induction H; intros ys Hy; inversion Hy; subst; auto.
  replace a0 with a in * by congruence. replace d0 with d in * by congruence. f_equal; auto.
Qed.

Lemma pair_at_cons h l a d : nth_error h l = Some (CPair a d) -> pair_at h (VPtr l) = Some (a, d).
Proof. intros H; simpl; now rewrite H. Qed.
Lemma pair_at_inv h v a d : pair_at h v = Some (a, d) -> exists l, v = VPtr l /\ nth_error h l = Some (CPair a d).
Proof.
  destruct v; simpl; try discriminate. destruct (nth_error h l) as [[]|] eqn:E; try discriminate.
  intros [= <- <-]. eauto.
Qed.
Lemma list_at_cons_inv h v x xs : list_at h v (x :: xs) ->
  exists l d, v = VPtr l /\ nth_error h l = Some (CPair x d) /\ list_at h d xs /\ pair_at h v = Some (x, d).
Proof. inversion 1; subst. eexists _, _. repeat split; eauto.
  apply pair_at_cons; auto. Qed.

Lemma nth_snoc_new {A} (h : list A) c : nth_error (h ++ [c]) (length h) = Some c.
Proof. rewrite nth_error_app2 by lia. now rewrite Nat.sub_diag. Qed.

Lemma upd_cell_length l c h : length (upd_cell l c h) = length h.
Proof. revert l; induction h; destruct l; simpl; auto. Qed.
Lemma upd_cell_eq l c h : l < length h -> nth_error (upd_cell l c h) l = Some c.
Proof. revert l; induction h; destruct l; simpl; intros; try lia; auto. apply IHh; lia. Qed.
Lemma upd_cell_ne l m c h : l <> m -> nth_error (upd_cell l c h) m = nth_error h m.
Proof.
  revert l m; induction h; destruct l, m; simpl; intros; auto; try congruence; try (destruct m; auto; fail).
Qed.
Lemma upd_cell_app h x c e : upd_cell (length h) c (h ++ x :: e) = h ++ c :: e.
Proof. induction h; simpl; auto. now rewrite IHh. Qed.
Lemma upd_cell_app_l h e l c : l < length h -> upd_cell l c (h ++ e) = upd_cell l c h ++ e.
Proof.
  revert l; induction h; destruct l; simpl; intros; try lia; auto. rewrite IHh; auto; lia.
Qed.

Lemma reads_ext_both h h' : extends h h' ->
  (forall v x, reads h v x -> reads h' v x) /\
  (forall vs xs, reads_list h vs xs -> reads_list h' vs xs).
Proof.
  intros E. apply reads_reads_list_ind; intros;
    first [solve [econstructor; eauto using extends_nth] | eapply RdSyntax; eauto using extends_nth].
Qed.
Lemma reads_ext h h' v x : extends h h' -> reads h v x -> reads h' v x.
Proof. intros E; apply (proj1 (reads_ext_both _ _ E)). Qed.
