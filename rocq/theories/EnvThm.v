(** Theorems about top-level environments (C10, C11).

    [observe os o] is what operation [o] returns when it is performed after the
    history [os] on a fresh system; [legal os] says that the history only names
    environments and captures that exist, assigns ([set!]) only variables that
    exist, copies with duplicate-free name lists, and is shorter than 2^58. *)
From Coq Require Import ZArith NArith Bool Ascii String List Lia Permutation.
From Verif Require Import Base Hashtable HashtableProofs Symbol SymbolProofs Env EnvProofs.
Import ListNotations.

(** Symbols are compared by address and hashed by address: any decidable
    equality and any 64-bit hash. *)
Record symbols_ok (K : Type) (eq_hash : K -> N) (keqb : K -> K -> bool) : Prop := {
  so_eqb : forall a b, keqb a b = true <-> a = b;
  so_hash : forall k, (eq_hash k < 2 ^ 64)%N }.

Section Thm.
Variables K V : Type.
Variable eq_hash : K -> N.
Variable keqb : K -> K -> bool.
Hypothesis OK : symbols_ok K eq_hash keqb.
Notation observe := (observe K V eq_hash keqb).
Notation legal := (legal K V keqb).

(** Every history of operations on any number of environments gives the same
    results as finite maps (lists of names up to order). *)
Theorem C10_environment_refines_map os s xs :
  (N.of_nat (length os) < 2 ^ 59)%N -> Forall (op_ok K V) os ->
  sp_run K V keqb (spec0 K V) os = Some (s, xs) ->
  exists w ys, erun K V eq_hash keqb (world0 K V) os = Some (w, ys) /\ Forall2 (out_eq K V) ys xs.
Proof. destruct OK. apply refines; auto. Qed.

(** A lookup returns the value stored last under that name; storing under one
    name does not change what is found under another. *)
Theorem C10_get_after_set os i k k' v : legal (os ++ [ESet _ _ i k v]) ->
  observe (os ++ [ESet _ _ i k v]) (EGet _ _ i k') =
    if keqb k k' then Some (XVal _ _ v) else observe os (EGet _ _ i k').
Proof. destruct OK. apply get_after_set; auto. Qed.

(** A new environment has no variables. *)
Theorem C10_new_empty os i k : legal os -> observe os (ENew _ _) = Some (XEnv _ _ i) ->
  legal (os ++ [ENew _ _]) ->
  observe (os ++ [ENew _ _]) (EGet _ _ i k) = Some (XMissing _ _).
Proof.
  destruct OK. intros L H L'. pose proof L as ((s & xs & R) & _).
  destruct (observe_spec K V eq_hash keqb so_eqb0 so_hash0 os (ENew _ _) s xs _ _ L I R eq_refl) as (y & Hy & Q).
  rewrite H in Hy. injection Hy as <-. simpl in Q. injection Q as ->.
  rewrite (observe_get K V eq_hash keqb so_eqb0 so_hash0 (os ++ [ENew _ _])
             (mkspec _ _ (senvs _ _ s ++ [[]]) (srefs _ _ s)) (xs ++ [XEnv _ _ (length (senvs _ _ s))]) _ _ [] L').
  - reflexivity.
  - eapply sp_run_app_intro; [exact R|]. reflexivity.
  - cbn [senvs]. rewrite nth_error_app2, Nat.sub_diag by lia. reflexivity.
Qed.

(** A captured variable: at any later time, reading through the capture and
    looking the name up give the same result, however often the table was
    rehashed in between ... *)
Theorem C10_capture_reads os r i k : legal os -> nth_error (captures K V os) r = Some (i, k) ->
  exists y, observe os (ERefGet _ _ r) = Some y /\ observe os (EGet _ _ i k) = Some y.
Proof. destruct OK. apply capture_reads; auto. Qed.

(** ... and an assignment through the capture is seen by lookups. *)
Theorem C10_capture_writes os r i k v : legal (os ++ [ERefSet _ _ r v]) ->
  nth_error (captures K V os) r = Some (i, k) ->
  observe (os ++ [ERefSet _ _ r v]) (EGet _ _ i k) = Some (XVal _ _ v).
Proof. destruct OK. apply capture_writes; auto. Qed.

(** Operations that do not store to environment [i], directly or through a
    capture of one of its variables, do not change what it contains. *)
Theorem C11_isolation os1 os2 i k : legal (os1 ++ os2) ->
  (forall o, In o os2 -> ~ stores_to K V (captures K V (os1 ++ os2)) o i) ->
  observe os1 (EGet _ _ i k) <> None ->
  observe (os1 ++ os2) (EGet _ _ i k) = observe os1 (EGet _ _ i k).
Proof. destruct OK. apply isolation; auto. Qed.

(** copy-environment makes a new environment with exactly the requested names
    that are bound, with their current values. *)
Theorem C11_copy_contents_partial os i mut syms : legal (os ++ [ECopy _ _ i mut syms]) ->
  exists j, observe os (ECopy _ _ i mut syms) = Some (XEnv _ _ j) /\ observe os (ENames _ _ j) = None /\
  forall k, (In k syms -> observe (os ++ [ECopy _ _ i mut syms]) (EGet _ _ j k) = observe os (EGet _ _ i k)) /\
            (~ In k syms -> observe (os ++ [ECopy _ _ i mut syms]) (EGet _ _ j k) = Some (XMissing _ _)).
Proof. destruct OK. apply copy_contents; auto. Qed.

(** Copying a whole environment (make-base-environment). *)
Theorem C11_copy_all_contents os i mut : legal (os ++ [ECopyAll _ _ i mut]) ->
  exists j, observe os (ECopyAll _ _ i mut) = Some (XEnv _ _ j) /\ observe os (ENames _ _ j) = None /\
  forall k, observe (os ++ [ECopyAll _ _ i mut]) (EGet _ _ j k) = observe os (EGet _ _ i k).
Proof. destruct OK. apply copy_all_contents; auto. Qed.

End Thm.

(** ** Concrete cases *)
Definition nat_hash (k : nat) : N := (N.of_nat k mod 2 ^ 64)%N.
Lemma nat_symbols : symbols_ok nat nat_hash Nat.eqb.
Proof.
  constructor.
  - intros a b. apply Nat.eqb_eq.
  - intros k. unfold nat_hash. apply N.mod_lt. discriminate.
Qed.

(** Twenty definitions force two rehashings; variable 3 was captured before. *)
Definition many : list (eop nat nat) :=
  [ENew _ _] ++ map (fun k => ESet _ _ 0 k (100 + k)) (seq 0 5) ++ [ERef _ _ 0 3] ++
  map (fun k => ESet _ _ 0 k (100 + k)) (seq 5 15) ++ [ERefSet _ _ 0 7; ECopy _ _ 0 true [3; 4; 99]; ESet _ _ 1 3 8].
Example many_legal : legal nat nat Nat.eqb many.
Proof.
  split; [eexists _, _; vm_compute; reflexivity|]. split.
  - repeat constructor; vm_compute; intuition; discriminate.
  - vm_compute. reflexivity.
Qed.
Example many_observed :
  map (observe nat nat nat_hash Nat.eqb many)
    [EGet _ _ 0 3; ERefGet _ _ 0; EGet _ _ 1 3; EGet _ _ 1 4; EGet _ _ 1 99; EGet _ _ 0 19; EGet _ _ 0 77] =
  map Some [XVal _ _ 7; XVal _ _ 7; XVal _ _ 8; XVal _ _ 104; XMissing _ _; XVal _ _ 119; XMissing _ _].
Proof. vm_compute. reflexivity. Qed.

(** With a name listed twice in copy-environment the copy is not a finite map:
    after storing 99 under name 1 and then defining other names only, name 1 reads
    as the old value 10 again, because rehashing brings the shadowed second cell
    to the front. *)
Definition dup_before : list (eop nat nat) :=
  [ENew _ _; ESet _ _ 0 1 10; ECopy _ _ 0 true [1; 1]].
Definition dup_after : list (eop nat nat) := map (fun k => ESet _ _ 1 k 0) (seq 2 13).
Theorem C11_duplicate_names_refuted :
  observe nat nat nat_hash Nat.eqb (dup_before ++ [ESet _ _ 1 1 99]) (EGet _ _ 1 1) = Some (XVal _ _ 99) /\
  (forall o, In o dup_after -> exists k v, o = ESet _ _ 1 k v /\ k <> 1) /\
  observe nat nat nat_hash Nat.eqb (dup_before ++ [ESet _ _ 1 1 99] ++ dup_after) (EGet _ _ 1 1) = Some (XVal _ _ 10).
Proof.
  split; [vm_compute; reflexivity|]. split; [|vm_compute; reflexivity].
  intros o H. apply in_map_iff in H as (k & <- & Hk). apply in_seq in Hk. exists k, 0. split; auto. lia.
Qed.

(** The mutable? flag is recorded but environment-set! ignores it: a variable
    copied as immutable can be changed. *)
Theorem C11_immutable_copy_refuted :
  observe nat nat nat_hash Nat.eqb [ENew _ _; ESet _ _ 0 1 10; ECopy _ _ 0 false [1]; ESet _ _ 1 1 99] (EGet _ _ 1 1)
  = Some (XVal _ _ 99).
Proof. vm_compute. reflexivity. Qed.

Print Assumptions C10_environment_refines_map.
Print Assumptions C10_get_after_set.
Print Assumptions C10_new_empty.
Print Assumptions C10_capture_reads.
Print Assumptions C10_capture_writes.
Print Assumptions C11_isolation.
Print Assumptions C11_copy_contents_partial.
Print Assumptions C11_copy_all_contents.
Print Assumptions C11_duplicate_names_refuted.
