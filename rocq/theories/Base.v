(** Shared base of the model: machine words, C strings and heap-free objects. *)
From Coq Require Import ZArith NArith Bool Ascii String List Lia.
Import ListNotations.

(** ** Machine words *)

(** [muptr] and [mfixnum] are 64 bits wide: src/core/minim.h:31-36. *)
Definition word_mod : N := (2 ^ 64)%N.
Definition word_max_long : N := (2 ^ 63)%N.

(** C conversion [long -> unsigned long] (and [uintptr_t]): modulo 2^64. *)
Definition u64_of_long (z : Z) : N := Z.to_N (z mod 2 ^ 64)%Z.

(** C conversion [unsigned long -> long] as every supported compiler does it
    (two's complement reinterpretation). *)
Definition long_of_u64 (u : N) : Z :=
  if (u <? word_max_long)%N then Z.of_N u else (Z.of_N u - 2 ^ 64)%Z.

(** The values a C [long] can hold (src/core/minim.h:33). *)
Definition is_long (z : Z) : Prop := (- 2 ^ 63 <= z < 2 ^ 63)%Z.
Definition is_longb (z : Z) : bool := ((- 2 ^ 63 <=? z) && (z <? 2 ^ 63))%Z.

(** Wrap-around of a mathematical integer into a [long]. *)
Definition wrap_long (z : Z) : Z := long_of_u64 (u64_of_long z).

Lemma is_longb_spec z : is_longb z = true <-> is_long z.
Proof. unfold is_longb, is_long. rewrite andb_true_iff, Z.leb_le, Z.ltb_lt. tauto. Qed.

Lemma u64_of_long_lt z : (u64_of_long z < word_mod)%N.
Proof.
  unfold u64_of_long, word_mod.
  assert (H : (0 <= z mod 2 ^ 64 < 2 ^ 64)%Z) by (apply Z.mod_pos_bound; reflexivity).
  lia.
Qed.

Lemma long_u64_roundtrip z : is_long z -> long_of_u64 (u64_of_long z) = z.
Proof.
  unfold is_long, long_of_u64, u64_of_long, word_max_long; intros H.
  destruct (Z_lt_ge_dec z 0) as [Hn|Hn].
  - assert (E : (z mod 2 ^ 64 = z + 2 ^ 64)%Z).
    { symmetry; apply Zmod_unique with (-1)%Z; lia. }
    rewrite E. destruct (N.ltb_spec (Z.to_N (z + 2 ^ 64)) (2 ^ 63)); lia.
  - rewrite Z.mod_small by lia.
    destruct (N.ltb_spec (Z.to_N z) (2 ^ 63)); lia.
Qed.

Lemma u64_of_long_small z : (0 <= z < 2 ^ 64)%Z -> u64_of_long z = Z.to_N z.
Proof. intros; unfold u64_of_long; rewrite Z.mod_small; auto. Qed.

Lemma long_of_u64_range u : (u < word_mod)%N -> is_long (long_of_u64 u).
Proof.
  unfold word_mod, long_of_u64, is_long, word_max_long; intros.
  destruct (N.ltb_spec u (2 ^ 63)); lia.
Qed.

Lemma wrap_long_id z : is_long z -> wrap_long z = z.
Proof. apply long_u64_roundtrip. Qed.

Lemma wrap_long_range z : is_long (wrap_long z).
Proof. apply long_of_u64_range, u64_of_long_lt. Qed.

(** ** C strings *)

(** A C string buffer is a list of bytes; what the C library sees is the part
    before the first NUL ([strlen], [strcmp], [fputs]). *)
Notation byte := ascii (only parsing).
Definition NUL : byte := Ascii.zero.

Fixpoint cstr (b : list byte) : list byte :=
  match b with
  | [] => []
  | c :: r => if Ascii.eqb c NUL then [] else c :: cstr r
  end.

Definition nul_free (b : list byte) : Prop := ~ In NUL b.

Lemma cstr_nul_free b : nul_free b -> cstr b = b.
Proof.
  unfold nul_free; induction b as [|c r IH]; simpl; auto; intros H.
  destruct (Ascii.eqb_spec c NUL); [exfalso; auto | f_equal; auto].
Qed.

Lemma nul_free_cstr b : nul_free (cstr b).
Proof.
  unfold nul_free; induction b as [|c r IH]; simpl; auto.
  destruct (Ascii.eqb_spec c NUL); simpl; intuition.
Qed.

Lemma cstr_length b : length (cstr b) <= length b.
Proof. induction b; simpl; auto. destruct Ascii.eqb; simpl; lia. Qed.

(** ** Objects as trees

    Minim objects as they are seen by code that only reads acyclic data
    (src/core/minim.h:114-330).  [OOther] stands for every remaining object
    type (closures, ports, boxes are separate, hashtables, environments,
    continuations, code). *)
Inductive obj : Type :=
| ONull | OTrue | OFalse | OEof | OVoid
| OSym (name : list byte)            (* interned symbol *)
| OGensym (name : list byte) (id : N) (* uninterned symbol *)
| OStr (buf : list byte)             (* string buffer without final NUL *)
| OFix (z : Z)
| OChar (c : byte)
| OPair (a d : obj)
| OEmptyVec                          (* the shared empty vector *)
| OVec (l : list obj)
| OBaseRtd
| ORec (rtd : obj) (fields : list obj)
| OBox (o : obj)
| OSyntax (e : obj) (loc : obj)
| OOther (kind : N).

Section ObjInd.
  Variable P : obj -> Prop.
  Hypothesis Hnull : P ONull.
  Hypothesis Htrue : P OTrue.
  Hypothesis Hfalse : P OFalse.
  Hypothesis Heof : P OEof.
  Hypothesis Hvoid : P OVoid.
  Hypothesis Hsym : forall n, P (OSym n).
  Hypothesis Hgensym : forall n i, P (OGensym n i).
  Hypothesis Hstr : forall b, P (OStr b).
  Hypothesis Hfix : forall z, P (OFix z).
  Hypothesis Hchar : forall c, P (OChar c).
  Hypothesis Hpair : forall a d, P a -> P d -> P (OPair a d).
  Hypothesis Hev : P OEmptyVec.
  Hypothesis Hvec : forall l, Forall P l -> P (OVec l).
  Hypothesis Hbr : P OBaseRtd.
  Hypothesis Hrec : forall r l, P r -> Forall P l -> P (ORec r l).
  Hypothesis Hbox : forall o, P o -> P (OBox o).
  Hypothesis Hstx : forall e l, P e -> P l -> P (OSyntax e l).
  Hypothesis Hother : forall k, P (OOther k).

  Fixpoint obj_ind_strong (o : obj) : P o :=
    let fix go (l : list obj) : Forall P l :=
      match l with
      | [] => Forall_nil P
      | x :: r => Forall_cons x (obj_ind_strong x) (go r)
      end in
    match o with
    | ONull => Hnull | OTrue => Htrue | OFalse => Hfalse
    | OEof => Heof | OVoid => Hvoid
    | OSym n => Hsym n | OGensym n i => Hgensym n i
    | OStr b => Hstr b | OFix z => Hfix z | OChar c => Hchar c
    | OPair a d => Hpair a d (obj_ind_strong a) (obj_ind_strong d)
    | OEmptyVec => Hev
    | OVec l => Hvec l (go l)
    | OBaseRtd => Hbr
    | ORec r l => Hrec r l (obj_ind_strong r) (go l)
    | OBox x => Hbox x (obj_ind_strong x)
    | OSyntax e l => Hstx e l (obj_ind_strong e) (obj_ind_strong l)
    | OOther k => Hother k
    end.
End ObjInd.

(** [s2b "text"] is the byte list of a string literal. *)
Definition s2b (s : string) : list byte := list_ascii_of_string s.
