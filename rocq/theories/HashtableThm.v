(** C05-C07: hashtables are finite maps, copies are independent, enumerations
    list every binding once. *)
From Coq Require Import ZArith NArith Bool Ascii String List Lia Permutation.
From Verif Require Import Base Hashtable HashtableProofs.
Import ListNotations.

(** What a table's procedures must satisfy: the equivalence is an equivalence
    relation and equivalent keys have the same hash code. *)
Record good_table (K : Type) (hash : K -> Z) (equiv : K -> K -> bool) : Prop := {
  gt_refl : forall a, equiv a a = true;
  gt_sym : forall a b, equiv a b = equiv b a;
  gt_trans : forall a b c, equiv a b = true -> equiv b c = true -> equiv a c = true;
  gt_hash : forall a b, equiv a b = true -> hash a = hash b }.

(** ** C05 *)

(** Any history over any number of tables (creation, copy, set, update, delete,
    clear, interleaved with lookups, size queries and enumerations) runs without
    dangling pointers or divergence and returns what the finite maps of the
    specification ([arun]) return.  The bound is the last entry of the table of
    bucket sizes, about 4.6 * 10^18 operations. *)
Theorem C05_hashtable_refines_map :
  forall (K V : Type) (hash : K -> Z) (equiv : K -> K -> bool),
  good_table K hash equiv ->
  forall os : list (op K V), size_ok (length os) ->
  exists w xs, run K V hash equiv (world0 K V) os = Some (w, xs) /\
    Forall2 (out_match K V) xs (snd (arun K V equiv [] os)).
Proof. intros K V hash equiv [? ? ? ?] os H. eapply run_refines; eauto. Qed.

(** The specification's maps obey the map laws. *)
Theorem C05_spec_get_set : forall (K V : Type) hash (equiv : K -> K -> bool),
  good_table K hash equiv -> forall m k (v : V) k',
  aget K V equiv (aset K V equiv m k v) k' = if equiv k k' then Some v else aget K V equiv m k'.
Proof. intros K V hash equiv [? ? ? ?] m k v k'. eapply aget_aset; eauto. Qed.

Theorem C05_spec_get_delete : forall (K V : Type) hash (equiv : K -> K -> bool),
  good_table K hash equiv -> forall m k k',
  aget K V equiv (adel K V equiv m k) k' = if equiv k k' then None else aget K V equiv m k'.
Proof. intros K V hash equiv [? ? ? ?] m k k'. eapply aget_adel; eauto. Qed.

(** ** C06 *)

(** Whatever is done to other tables, what is observed of table [j] stays the
    same. *)
Theorem C06_isolation : forall (K V : Type) hash (equiv : K -> K -> bool),
  good_table K hash equiv ->
  forall os1 os2 o j w1 xs1 x1 w2 xs2 x2,
  observes K V o j -> (forall o', In o' os2 -> ~ mutates K V o' j) ->
  size_ok (length (os1 ++ os2 ++ [o])) ->
  run K V hash equiv (world0 K V) (os1 ++ [o]) = Some (w1, xs1 ++ [x1]) ->
  run K V hash equiv (world0 K V) (os1 ++ os2 ++ [o]) = Some (w2, xs2 ++ [x2]) ->
  x1 <> RNoTable K V -> out_match K V x1 x2.
Proof. intros K V hash equiv [? ? ? ?]. intros. eapply isolation; eauto. Qed.

(** A copy shows what the original showed when it was copied, whatever is done
    later to the original or any table other than the copy. *)
Theorem C06_copy_independent : forall (K V : Type) hash (equiv : K -> K -> bool),
  good_table K hash equiv ->
  forall os1 os2 o i j w0 xs0 w1 xs1 x1 w2 xs2 x2,
  observes K V o i -> (forall o', In o' os2 -> ~ mutates K V o' j) ->
  size_ok (length (os1 ++ OCopy K V i :: os2 ++ [o])) ->
  run K V hash equiv (world0 K V) (os1 ++ [OCopy K V i]) = Some (w0, xs0 ++ [RTable K V j]) ->
  run K V hash equiv (world0 K V) (os1 ++ [o]) = Some (w1, xs1 ++ [x1]) ->
  run K V hash equiv (world0 K V) (os1 ++ OCopy K V i :: os2 ++ [retarget K V o j]) = Some (w2, xs2 ++ [x2]) ->
  out_match K V x1 x2.
Proof. intros K V hash equiv [? ? ? ?]. intros. eapply copy_isolation; eauto. Qed.

(** The runs mentioned above exist. *)
Theorem C06_observation_exists : forall (K V : Type) hash (equiv : K -> K -> bool),
  good_table K hash equiv -> forall os o, size_ok (length (os ++ [o])) ->
  exists w xs x, run K V hash equiv (world0 K V) (os ++ [o]) = Some (w, xs ++ [x]).
Proof. intros K V hash equiv [? ? ? ?] os o H. eapply last_result_exists; eauto. Qed.

(** ** C07 *)

Theorem C07_entries_enumerate : forall (K V : Type) hash (equiv : K -> K -> bool),
  good_table K hash equiv ->
  forall os i k w xs l n r, size_ok (length os + 3) ->
  run K V hash equiv (world0 K V) (os ++ [OEntries K V i; OSize K V i; ORef K V i k]) =
    Some (w, xs ++ [REntries K V l; RSize K V n; RRef K V r]) ->
  exists es, l = map Some es /\ n = Z.of_nat (length es) /\
    ForallOrdPairs (fun a b => equiv (fst a) (fst b) = false) es /\
    (forall v, r = Some v <-> exists k', In (k', v) es /\ equiv k' k = true).
Proof. intros K V hash equiv [? ? ? ?]. intros. eapply enumeration; eauto. Qed.

(** ** Cases *)

Lemma int_table_good : good_table Z (fun z => z / 3)%Z Z.eqb.
Proof.
  constructor.
  - apply Z.eqb_refl.
  - apply Z.eqb_sym.
  - intros a b c H1 H2. apply Z.eqb_eq in H1, H2. subst. apply Z.eqb_refl.
  - intros a b H. apply Z.eqb_eq in H. now subst.
Qed.

(** Sixty insertions with collisions (growth to 29, 59 and 113 buckets), a copy,
    then deletions down to 20 entries (shrinking), then observations. *)
Definition history : list (op Z Z) :=
  [OMake _ _] ++ map (fun n => OSet Z Z 0 (Z.of_nat n - 7)%Z (Z.of_nat n * 10)%Z) (seq 0 60) ++
  [OCopy _ _ 0; OUpdate _ _ 0 5%Z (Z.add 1) None; OUpdate _ _ 0 1000%Z (Z.add 1) None] ++
  map (fun n => ODelete Z Z 0 (Z.of_nat n - 7)%Z) (seq 20 40) ++
  [ORef _ _ 0 5%Z; ORef _ _ 1 5%Z; ORef _ _ 0 40%Z; ORef _ _ 1 40%Z; OSize _ _ 0; OSize _ _ 1; OClear _ _ 1;
   OSize _ _ 1; OSize _ _ 0].

Example history_run :
  match run Z Z (fun z => z / 3)%Z Z.eqb (world0 Z Z) history with
  | Some (w, xs) => (map (fun t => length (buckets t)) (tabs _ _ w), skipn 61 xs)
  | None => ([], [])
  end = ([29; 13], [RTable _ _ 1; RVoid _ _; RMissing _ _] ++ repeat (RVoid _ _) 40 ++
         [RRef _ _ (Some 121%Z); RRef _ _ (Some 120%Z); RRef _ _ None; RRef _ _ (Some 470%Z);
          RSize _ _ 20%Z; RSize _ _ 60%Z; RVoid _ _; RSize _ _ 0%Z; RSize _ _ 20%Z]).
Proof. vm_compute. reflexivity. Qed.

Example history_applies : size_ok (length history).
Proof. vm_compute. discriminate. Qed.

Print Assumptions C05_hashtable_refines_map.
Print Assumptions C06_isolation.
Print Assumptions C06_copy_independent.
Print Assumptions C07_entries_enumerate.
