(** C22: set operations implement finite-set algebra. *)
From Coq Require Import ZArith NArith Bool List Lia.
From Verif Require Import Base Hashtable HashtableProofs HashtableThm Sets SetsProofs.
Import ListNotations.

(** Every history of calls on any number of sets runs without dangling pointers
    or divergence, and every result is the one [spec_out] allows when each set is
    the membership function that [spec_next] computes.  The bound is on the
    number of elements the history mentions (about 4.6 * 10^18). *)
Theorem C22_sets_refine_finite_sets :
  forall (K : Type) (hash : K -> Z) (equiv : K -> K -> bool),
  good_table K hash equiv ->
  forall os : list (sop K), size_ok (S (length (concat (map (mentions K) os)))) ->
  exists s rs, srun K hash equiv (sworld0 K) os = Some (s, rs) /\ spec_run K equiv [] os rs.
Proof. intros K hash equiv [? ? ? ?] os H. apply set_history; auto. Qed.

(** In the specification only set-add!, set-remove! and set-clear! change an
    existing set, and only the one they are given. *)
Theorem C22_arguments_unchanged :
  forall (K : Type) (equiv : K -> K -> bool) (fs : list (mset K)) (o : sop K) i f,
  nth_error fs i = Some f ->
  match o with SAdd _ j _ | SRemove _ j _ | SClear _ j => j <> i | _ => True end ->
  nth_error (spec_next K equiv fs o) i = Some f.
Proof.
  intros K equiv fs o i f H N.
  assert (A : forall g, nth_error (fs ++ [g]) i = Some f) by (intros; now apply nth_app_l).
  destruct o; cbn [spec_next]; auto;
    try (destruct (nth_error fs i0); auto; rewrite nth_upd_ne; auto; fail);
    try (destruct (get_all _ _ _) as [[|? ?]|]; auto; fail).
Qed.

(** Two lists that enumerate the same set have the same length, so the count the
    specification allows is unique. *)
Theorem C22_count_unique :
  forall (K : Type) (hash : K -> Z) (equiv : K -> K -> bool), good_table K hash equiv ->
  forall f xs ys, enumerates K equiv xs f -> enumerates K equiv ys f -> length xs = length ys.
Proof.
  intros K hash equiv [R S T _] f xs ys.
  assert (G : forall xs ys f g, enumerates K equiv xs f -> enumerates K equiv ys g ->
    (forall x, f x = true -> g x = true) -> length xs <= length ys).
  { clear xs ys f. induction xs as [|x xs IH]; intros ys f g [D1 E1] [D2 E2] Q; simpl; [lia|].
    inversion D1 as [|? ? A1 A2]; subst.
    assert (X : listed K equiv ys x = true). { rewrite <- E2. apply Q. rewrite E1. simpl. now rewrite R. }
    apply existsb_exists in X. destruct X as (y & Iy & Qy). apply in_split in Iy. destruct Iy as (l1 & l2 & ->).
    assert (IHx : length xs <= length (l1 ++ l2)).
    { apply (IH (l1 ++ l2) (listed K equiv xs) (listed K equiv (l1 ++ l2))).
      - split; auto.
      - split; auto. clear -D2. induction l1 as [|a l1 IH]; simpl in *; inversion D2; subst; auto.
        constructor; auto. apply Forall_app in H1. destruct H1 as [B1 B2]. inversion B2; subst. apply Forall_app. auto.
      - intros z Hz. assert (Gz : g z = true).
        { apply Q. rewrite E1. unfold listed in *. simpl. rewrite Hz. apply orb_true_r. }
        rewrite E2 in Gz. unfold listed in *. rewrite existsb_app in *. simpl in Gz.
        destruct (equiv y z) eqn:Yz; [|rewrite orb_false_l in Gz; exact Gz].
        exfalso. apply existsb_exists in Hz. destruct Hz as (x' & Ix & Qx).
        rewrite Forall_forall in A1. specialize (A1 _ Ix).
        rewrite (T x y x') in A1; [discriminate| |].
        + now rewrite S.
        + apply T with z; auto. now rewrite S. }
    rewrite app_length in *. simpl. lia. }
  intros E1 E2. assert (G1 := G xs ys f f E1 E2 (fun _ h => h)). assert (G2 := G ys xs f f E2 E1 (fun _ h => h)). lia.
Qed.

(** ** A case: sets of integers with colliding hash codes. *)
Definition sets_history : list (sop Z) :=
  [SMake _ [1; 2; 3; 2]%Z; SMake _ [3; 4; 9]%Z; SUnion _ [0; 1]; SIntersect _ [0; 1; 2]; SSubtract _ 0 [1];
   SSymdiff _ 0 [1; 4]; SAdd _ 0 7%Z; SCount _ 0; SCount _ 2; SMember _ 2 7%Z; SSubset _ 3 1; SProper _ 1 1; SEq _ 4 0;
   SRemove _ 0 7%Z; SRemove _ 0 3%Z; SEq _ 4 0; SToList _ 5; SClear _ 1; SEmpty _ 1; SEmpty _ 3; SUnion _ [0; 17]].

Example sets_history_run :
  match srun Z (fun z => z / 3)%Z Z.eqb (sworld0 Z) sets_history with Some (_, rs) => rs | None => [] end =
  [SSet _ 0; SSet _ 1; SSet _ 2; SSet _ 3; SSet _ 4; SSet _ 5; SVoid _; SNum _ 4%Z; SNum _ 5%Z; SBool _ false; SBool _ true;
   SBool _ false; SBool _ false; SVoid _; SVoid _; SBool _ true; SList _ [9; 4]%Z; SVoid _; SBool _ true; SBool _ false;
   SNotASet _].
Proof. vm_compute. reflexivity. Qed.

Example sets_history_applies : size_ok (S (length (concat (map (mentions Z) sets_history)))).
Proof. vm_compute. discriminate. Qed.

Print Assumptions C22_sets_refine_finite_sets.
Print Assumptions C22_arguments_unchanged.
Print Assumptions C22_count_unique.
