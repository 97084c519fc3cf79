(** Theorems about fasl-read / fasl-write (C01-C04). *)
From Coq Require Import ZArith NArith Bool Ascii String List Lia.
From Verif Require Import Base Fasl FaslProofs.
Import ListNotations.
Local Open Scope N_scope.

(** C01: every 64-bit word written is read back, and the decoder stops exactly
    at the end of the encoding, whatever follows. *)
Theorem C01_uptr_roundtrip : forall (u : N) (rest : list byte),
  u < 2 ^ 64 -> read_uptr (write_uptr u ++ rest) = ROk u rest.
Proof. exact uptr_roundtrip. Qed.

Theorem C01_uptr_prefix_free : forall (u v : N) (r r' : list byte),
  u < 2 ^ 64 -> v < 2 ^ 64 -> write_uptr u ++ r = write_uptr v ++ r' -> u = v /\ r = r'.
Proof. exact uptr_prefix_free. Qed.

Theorem C01_uptr_size : forall u, (1 <= length (write_uptr u) <= 10)%nat.
Proof. intros u. exact (write_uptr_loop_length 10 u ltac:(lia)). Qed.

Example C01_example : 2 ^ 64 - 1 < 2 ^ 64 /\ length (write_uptr (2 ^ 64 - 1)) = 10%nat.
Proof. split; [lia|vm_compute; reflexivity]. Qed.

(** C02: fasl-write succeeds on every faithful datum and fasl-read returns the
    very same datum, positioned just after it. *)
Theorem C02_fasl_roundtrip : forall x, faithful x ->
  exists w, write_fasl x = Some w /\
  exists n, forall fuel rest, (n <= fuel)%nat -> read_fasl fuel (w ++ rest) = ROk x rest.
Proof. exact faithful_good. Qed.

(** Running the reader longer never changes an answer it has already given, so
    "with enough fuel" in C02 determines the behaviour. *)
Theorem C02_fuel_irrelevant : forall f g s, (f <= g)%nat ->
  read_fasl f s <> RFuel -> read_fasl g s = read_fasl f s.
Proof. intros f. exact (proj1 (read_mono f)). Qed.

Theorem C02_fasl_injective : forall x y w, faithful x -> faithful y ->
  write_fasl x = Some w -> write_fasl y = Some w -> x = y.
Proof. exact faithful_inj. Qed.

Definition fasl_example : obj :=
  OPair (OSym (s2b "point"))
    (OPair (OVec [OFix (-7); OStr (s2b "a b"); OChar "x"%char])
       (OPair (ORec (ORec OBaseRtd [OSym (s2b "p"); OFalse]) [OFix (2 ^ 62); OEmptyVec])
              (OFix 3))).

Example C02_example : faithful fasl_example.
Proof.
  repeat constructor; try (unfold nul_free; simpl; intuition discriminate);
    try (unfold is_long; lia); simpl; lia.
Qed.

(** C03: data written one after the other are read back in that order. *)
Theorem C03_fasl_sequence : forall xs, Forall faithful xs ->
  exists w, write_many xs = Some w /\
  exists n, forall fuel rest, (n <= fuel)%nat ->
    read_many fuel (length xs) (w ++ rest) = ROk xs rest.
Proof. exact many_roundtrip. Qed.

Example C03_example : Forall faithful [fasl_example; ONull; OFix 5; fasl_example].
Proof. repeat (constructor; try apply C02_example); unfold is_long; lia. Qed.

(** C04: fasl-write gives up exactly on data that hold an unsupported value. *)
Theorem C04_fasl_write_rejects : forall x, write_fasl x = None <-> holds_unsupported x.
Proof. exact write_none_iff. Qed.

Example C04_example :
  write_fasl (OPair (OFix 1) (OVec [OBox ONull])) = None /\ write_fasl fasl_example <> None.
Proof. split; [reflexivity|vm_compute; discriminate]. Qed.

(** Findings: what falls outside [faithful] is really not preserved. *)

(** A gensym is read back as an interned symbol. *)
Theorem C02_gensym_refuted : exists x w fuel,
  write_fasl x = Some w /\ representable x /\ read_fasl fuel w = ROk (OSym (s2b "g")) []
  /\ x <> OSym (s2b "g").
Proof.
  exists (OGensym (s2b "g") 1), (tag FASL_SYMBOL :: write_cstr (s2b "g")), 5%nat.
  repeat split; try (vm_compute; reflexivity); try constructor; discriminate.
Qed.

(** A string with an embedded NUL is cut at the NUL. *)
Theorem C02_nul_string_refuted : exists x w fuel y,
  write_fasl x = Some w /\ representable x /\ read_fasl fuel w = ROk y [] /\ x <> y.
Proof.
  exists (OStr (s2b "a" ++ [NUL] ++ s2b "b")), (tag FASL_STRING :: write_cstr (s2b "a")), 5%nat, (OStr (s2b "a")).
  repeat split; try (vm_compute; reflexivity); try constructor; discriminate.
Qed.

(** fasl-read on a truncated stream runs into undefined behaviour (it never
    notices the end of the stream and shifts by more than the word size). *)
Theorem C02_truncated_input_refuted : exists s,
  (exists x w, faithful x /\ write_fasl x = Some w /\ exists t, w = s ++ t) /\
  forall fuel, (1 <= fuel)%nat -> read_fasl fuel s = RUndefined.
Proof.
  exists [tag FASL_FIXNUM]. split.
  - exists (OFix 5), (tag FASL_FIXNUM :: write_uptr 5). split; [constructor; unfold is_long; lia|].
    split; [reflexivity|]. eexists; reflexivity.
  - intros [|f] H; [lia|]. vm_compute. reflexivity.
Qed.

Print Assumptions C01_uptr_roundtrip.
Print Assumptions C01_uptr_prefix_free.
Print Assumptions C02_fasl_roundtrip.
Print Assumptions C02_fuel_irrelevant.
Print Assumptions C02_fasl_injective.
Print Assumptions C03_fasl_sequence.
Print Assumptions C04_fasl_write_rejects.
