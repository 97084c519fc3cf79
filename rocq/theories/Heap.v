(** The object heap: Minim values as pointers into a store of mutable cells
    (src/core/minim.h:114-330).

    Fixnums and characters are heap-allocated in C, but immutable, and [eq?]
    compares them by content (object.c:78-93), so they are immediate here.
    Symbols are immediate too: an interned symbol is its name (see Symbol.v for
    when that is right), an uninterned one carries an identity.  All other
    objects are cells, named by allocation number. *)
From Coq Require Import ZArith NArith Bool Ascii String List Lia.
From Verif Require Import Base.
Import ListNotations.

Inductive val : Type :=
| VNull | VTrue | VFalse | VEof | VVoid
| VUnbound                  (* what a variable holds before its initialisation, object.c *)
| VSym (name : list byte)
| VGensym (name : list byte) (id : N)
| VFix (z : Z)
| VChar (c : byte)
| VEmptyVec                 (* the shared empty vector, global.c:102 *)
| VBaseRtd
| VPtr (l : nat).

Inductive cell : Type :=
| CPair (a d : val)
| CVec (xs : list val)
| CStr (buf : list byte)    (* string buffer without its final NUL *)
| CBox (v : val)
| CRec (rtd : val) (fields : list val)
| CHash (id : N)            (* a hashtable; its contents are in Hashtable.v *)
| CSyntax (e loc : val)     (* a syntax object, syntax.c:7-13 *)
| COther (kind : N).        (* procedures, ports, environments, ... *)

Definition heap := list cell.

Definition alloc (c : cell) (h : heap) : val * heap := (VPtr (length h), h ++ [c]).

Fixpoint bytes_eqb (a b : list byte) : bool :=
  match a, b with
  | [], [] => true
  | x :: r, y :: s => Ascii.eqb x y && bytes_eqb r s
  | _, _ => false
  end.

(** minim_eqp, object.c:78-93. *)
Definition eqp (a b : val) : bool :=
  match a, b with
  | VNull, VNull | VTrue, VTrue | VFalse, VFalse | VEof, VEof | VVoid, VVoid | VUnbound, VUnbound
  | VEmptyVec, VEmptyVec | VBaseRtd, VBaseRtd => true
  | VSym x, VSym y => bytes_eqb x y
  | VGensym n i, VGensym m j => N.eqb i j && bytes_eqb n m
  | VFix x, VFix y => Z.eqb x y
  | VChar x, VChar y => Ascii.eqb x y
  | VPtr x, VPtr y => Nat.eqb x y
  | _, _ => false
  end.

(** Reading an acyclic datum out of the heap.  A string reads as the bytes
    before its first NUL: that is all any operation on strings looks at.
    Hashtables and records are not data in this sense; opaque objects and syntax
    objects read as their identity. *)
Inductive reads (h : heap) : val -> obj -> Prop :=
| RdNull : reads h VNull ONull
| RdTrue : reads h VTrue OTrue
| RdFalse : reads h VFalse OFalse
| RdEof : reads h VEof OEof
| RdVoid : reads h VVoid OVoid
| RdSym n : reads h (VSym n) (OSym n)
| RdGensym n i : reads h (VGensym n i) (OGensym n i)
| RdFix z : reads h (VFix z) (OFix z)
| RdChar c : reads h (VChar c) (OChar c)
| RdEmptyVec : reads h VEmptyVec (OVec [])
| RdBaseRtd : reads h VBaseRtd OBaseRtd
| RdPair l a d x y :
    nth_error h l = Some (CPair a d) -> reads h a x -> reads h d y ->
    reads h (VPtr l) (OPair x y)
| RdVec l vs xs :
    nth_error h l = Some (CVec vs) -> reads_list h vs xs -> reads h (VPtr l) (OVec xs)
| RdStr l b : nth_error h l = Some (CStr b) -> reads h (VPtr l) (OStr (cstr b))
| RdBox l v x : nth_error h l = Some (CBox v) -> reads h v x -> reads h (VPtr l) (OBox x)
| RdOther l k : nth_error h l = Some (COther k) -> reads h (VPtr l) (OOther (N.of_nat l))
| RdSyntax l e loc : nth_error h l = Some (CSyntax e loc) -> reads h (VPtr l) (OOther (N.of_nat l))
with reads_list (h : heap) : list val -> list obj -> Prop :=
| RdNil : reads_list h [] []
| RdCons v vs x xs : reads h v x -> reads_list h vs xs -> reads_list h (v :: vs) (x :: xs).

Scheme reads_mut := Induction for reads Sort Prop
with reads_list_mut := Induction for reads_list Sort Prop.
Combined Scheme reads_reads_list_ind from reads_mut, reads_list_mut.

Lemma bytes_eqb_spec a b : bytes_eqb a b = true <-> a = b.
Proof.
  revert b; induction a as [|x r IH]; destruct b as [|y s]; simpl; try (split; congruence).
  rewrite andb_true_iff, IH. destruct (Ascii.eqb_spec x y); split; intuition congruence.
Qed.
Lemma bytes_eqb_refl a : bytes_eqb a a = true.
Proof. apply bytes_eqb_spec; auto. Qed.

Lemma eqp_refl v : eqp v v = true.
Proof.
  destruct v; simpl; auto using bytes_eqb_refl, Z.eqb_refl, Nat.eqb_refl.
  - rewrite N.eqb_refl, bytes_eqb_refl; auto.
  - apply Ascii.eqb_refl.
Qed.
Lemma eqp_eq a b : eqp a b = true <-> a = b.
Proof.
  split; [|intros ->; apply eqp_refl].
  destruct a, b; simpl; intros H; try discriminate; auto.
  - apply bytes_eqb_spec in H; congruence.
  - apply andb_true_iff in H. destruct H as [H1 H2].
    apply N.eqb_eq in H1; apply bytes_eqb_spec in H2; congruence.
  - apply Z.eqb_eq in H; congruence.
  - apply Ascii.eqb_eq in H; congruence.
  - apply Nat.eqb_eq in H; congruence.
Qed.

Lemma reads_fun_both h :
  (forall v x, reads h v x -> forall y, reads h v y -> x = y) /\
  (forall vs xs, reads_list h vs xs -> forall ys, reads_list h vs ys -> xs = ys).
Proof.
  apply reads_reads_list_ind; intros;
    match goal with H : reads h _ ?y |- _ = ?y => inversion H; subst
                  | H : reads_list h _ ?y |- _ = ?y => inversion H; subst end;
    try congruence.
  - replace a0 with a in * by congruence. replace d0 with d in * by congruence.
    f_equal; auto.
  - replace vs0 with vs in * by congruence. f_equal; auto.
  - replace v0 with v in * by congruence. f_equal; auto.
  - f_equal; auto.
Qed.
Lemma reads_fun h v x y : reads h v x -> reads h v y -> x = y.
Proof. intros; eapply (proj1 (reads_fun_both h)); eauto. Qed.
