(** C15, C16: equal? decides structural equality; equal data hash alike. *)
From Coq Require Import ZArith NArith Bool Ascii String List Lia.
From Verif Require Import Base Outcome Hashtable Heap Equal EqualProofs.
Import ListNotations.

(** [reads h v x] (Heap.v) says that the acyclic datum [x] is what is found when
    following [v] in the heap; leaves that are compared by identity (opaque
    objects, uninterned symbols) appear in [x] as that identity. *)

(** ** C15 *)

(** [equal?] answers (with any fuel above the size of one argument), and the
    answer is #t exactly when both arguments are the same datum. *)
Theorem C15_equal_decides_structure :
  forall ext h a x b y fuel, reads h a x -> reads h b y -> osize x < fuel ->
  exists r, equal_p ext fuel h a b = Some r /\ (r = true <-> x = y).
Proof. intros. eapply equal_p_ok; eauto. Qed.

(** The same for the C primitive [$equal?]. *)
Theorem C15_c_equal_decides_structure :
  forall h a x b y fuel, reads h a x -> reads h b y -> osize x <= fuel ->
  exists r, equal_c fuel h a b = Some r /\ (r = true <-> x = y).
Proof. intros. eapply equal_c_ok; eauto. Qed.

Theorem C15_eq_implies_equal :
  forall ext h a b fuel, eqp a b = true -> equal_p ext (S fuel) h a b = Some true.
Proof. intros ext h a b fuel H. simpl. rewrite H. auto. Qed.

Theorem C15_equivalence :
  forall ext h a x b y c z fuel, reads h a x -> reads h b y -> reads h c z ->
  osize x < fuel -> osize y < fuel ->
  equal_p ext fuel h a a = Some true /\
  equal_p ext fuel h b a = equal_p ext fuel h a b /\
  (equal_p ext fuel h a b = Some true -> equal_p ext fuel h b c = Some true ->
   equal_p ext fuel h a c = Some true).
Proof.
  intros ext h a x b y c z fuel Ha Hb Hc Hx Hy.
  destruct (equal_p_ok ext h _ x a (le_n _) Ha b y fuel Hb Hx) as (r1 & E1 & H1).
  destruct (equal_p_ok ext h _ y b (le_n _) Hb a x fuel Ha Hy) as (r2 & E2 & H2).
  destruct (equal_p_ok ext h _ y b (le_n _) Hb c z fuel Hc Hy) as (r3 & E3 & H3).
  destruct (equal_p_ok ext h _ x a (le_n _) Ha c z fuel Hc Hx) as (r4 & E4 & H4).
  split; [|split].
  - destruct fuel; [lia|]. simpl. now rewrite eqp_refl.
  - rewrite E1, E2. f_equal.
    assert (H : r1 = true <-> r2 = true) by (rewrite H1, H2; split; congruence).
    destruct r1, r2; intuition.
  - rewrite E1, E3, E4. intros [= ->] [= ->]. f_equal. apply H4.
    rewrite (proj1 H1) by auto. apply H3; auto.
Qed.

(** Hashtables are outside C15 for a reason: [equal?] on them is not symmetric.
    An empty table is equal? to every table with the same procedures. *)
Theorem C15_hashtable_symmetry_refuted :
  exists w xs a b,
    run Z Z (fun z => z) Z.eqb (world0 Z Z) [OMake _ _; OMake _ _; OSet _ _ 1 7%Z 8%Z] = Some (w, xs) /\
    nth_error (tabs _ _ w) 0 = Some a /\ nth_error (tabs _ _ w) 1 = Some b /\
    equal_hashtable Z Z (fun z => z) Z.eqb Z.eqb (hp _ _ w) a b = Some true /\
    equal_hashtable Z Z (fun z => z) Z.eqb Z.eqb (hp _ _ w) b a = Some false.
Proof.
  destruct (run Z Z (fun z => z) Z.eqb (world0 Z Z) [OMake _ _; OMake _ _; OSet _ _ 1 7%Z 8%Z])
    as [[w xs]|] eqn:E; [|vm_compute in E; discriminate].
  vm_compute in E. injection E as <- <-.
  eexists _, _, _, _. repeat split; vm_compute; reflexivity.
Qed.

(** ** C16 *)

Theorem C16_equal_data_same_hash :
  forall addr exth ext h a x b y fuel, reads h a x -> reads h b y -> osize x < fuel ->
  equal_p ext fuel h a b = Some true ->
  equal_hash addr exth fuel h a = equal_hash addr exth fuel h b /\
  exists o, equal_hash addr exth fuel h a = Some o.
Proof.
  intros addr exth ext h a x b y fuel Ha Hb Hf E.
  destruct (equal_p_ok ext h _ x a (le_n _) Ha b y fuel Hb Hf) as (r & E1 & H1).
  rewrite E in E1; injection E1 as <-. assert (x = y) by (apply H1; auto). subst y.
  destruct (hash_loop_ok addr exth h _ x (le_n _) a b 523658599 fuel Ha Hb ltac:(lia)) as [E2 N].
  split; [exact E2|]. unfold equal_hash in *.
  destruct (hash_loop addr exth fuel h a 523658599); [eauto|congruence].
Qed.

(** The hash is a fixnum for data of up to about 10^10 nodes (beyond that, boxes
    nested that deep make the fixnum addition overflow). *)
Theorem C16_hash_is_fixnum :
  forall addr exth h a x fuel, reads h a x -> osize x < fuel ->
  (Z.of_nat (osize x) * 410225874 < 2 ^ 62)%Z ->
  exists z, equal_hash addr exth fuel h a = Some (Val z) /\ is_long z.
Proof.
  intros addr exth h a x fuel Ha Hf Hs.
  destruct (hash_loop_range addr exth h _ x (le_n _) a 523658599 fuel 0 Ha ltac:(lia)) as (z & E & Hz).
  - unfold hbound, box_step; lia.
  - exact Hs.
  - exists z; split; [exact E|]. unfold hbound, box_step, is_long in *. lia.
Qed.

(** ** Cases *)

(** Two separately allocated copies of [#((a . "hi") #&"hi\0x" 5)]: the box
    holds a string with a NUL in the second copy only. *)
Definition two_copies : heap :=
  [ CStr (s2b "hi"); CPair (VSym (s2b "a")) (VPtr 0); CStr (s2b "hi"); CBox (VPtr 2);
    CVec [VPtr 1; VPtr 3; VFix 5];
    CStr (s2b "hi"); CPair (VSym (s2b "a")) (VPtr 5); CStr (s2b "hi" ++ [NUL; "x"%char]); CBox (VPtr 7);
    CVec [VPtr 6; VPtr 8; VFix 5];
    CVec [VPtr 6; VPtr 8; VFix 6] ].
Definition the_datum : obj :=
  OVec [OPair (OSym (s2b "a")) (OStr (s2b "hi")); OBox (OStr (s2b "hi")); OFix 5].

Lemma rd_str h l b s : nth_error h l = Some (CStr b) -> cstr b = s -> reads h (VPtr l) (OStr s).
Proof. intros H <-. now constructor. Qed.

Example copy1 : reads two_copies (VPtr 4) the_datum.
Proof.
  eapply RdVec; [reflexivity|]. constructor; [|constructor; [|constructor; constructor]].
  - eapply RdPair; [reflexivity|constructor|eapply rd_str; reflexivity].
  - eapply RdBox; [reflexivity|eapply rd_str; reflexivity].
Qed.
Example copy2 : reads two_copies (VPtr 9) the_datum.
Proof.
  eapply RdVec; [reflexivity|]. constructor; [|constructor; [|constructor; constructor]].
  - eapply RdPair; [reflexivity|constructor|eapply rd_str; reflexivity].
  - eapply RdBox; [reflexivity|eapply rd_str; reflexivity].
Qed.
Example copies_equal : equal_p (fun _ _ => None) 20 two_copies (VPtr 4) (VPtr 9) = Some true.
Proof. reflexivity. Qed.
Example copies_differ : equal_p (fun _ _ => None) 20 two_copies (VPtr 4) (VPtr 10) = Some false.
Proof. reflexivity. Qed.
Example copies_hash : exists z,
  equal_hash (fun _ => 0%N) (fun _ => Undef) 20 two_copies (VPtr 4) = Some (Val z) /\
  equal_hash (fun _ => 0%N) (fun _ => Undef) 20 two_copies (VPtr 9) = Some (Val z).
Proof. eexists; split; vm_compute; reflexivity. Qed.

Print Assumptions C15_equal_decides_structure.
Print Assumptions C15_c_equal_decides_structure.
Print Assumptions C15_eq_implies_equal.
Print Assumptions C15_equivalence.
Print Assumptions C15_hashtable_symmetry_refuted.
Print Assumptions C16_equal_data_same_hash.
Print Assumptions C16_hash_is_fixnum.
