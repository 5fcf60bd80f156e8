(** * Eigenvalue solvers as class DMRG expects them exist

    (Not a model of any code: it shows that the hypotheses [dense_contract], [arpack_contract] and [arpack_succeeds] are
    satisfiable.) *)
From Coq Require Import Reals Lra Bool List Arith ZArith Lia Ring Classical ClassicalEpsilon.
From Verif Require Import Scalar ScalarFacts RScal Tensor TensorFacts Spec CanonSpec SvdExist MinimizerModel MinimizeSpec EigsExist HamModel DmrgModel DmrgSpec.
Import ListNotations.
Local Open Scope K_scope.

Section Exist.
Context {RS : RScal}.

Definition exact_dense (T : tensor) (neig : nat) (v : tensor) : list K * list K :=
  let s := epsilon (inhabits (0%R, fun _ => 0)) (fun ep => ground_state (length (data v)) (mat T) (fst ep) (snd ep)) in
  ([rinj (fst s)], map (snd s) (seq 0 (length (data v)))).
Definition exact_arpack (f : tensor -> tensor) (n neig : nat) (v : tensor) : option (list K * list K) :=
  let s := epsilon (inhabits (0%R, fun _ => 0)) (fun ep => exists M, acts_as (fun x => Ok (f x)) n M /\ ground_state n M (fst ep) (snd ep)) in
  Some ([rinj (fst s)], map (snd s) (seq 0 n)).

Theorem dmrg_solvers_exist : dense_contract exact_dense /\ arpack_contract exact_arpack /\ arpack_succeeds exact_arpack.
Proof.
  split; [|split].
  - intros T n v Hn _ HM Hl. unfold exact_dense. rewrite Hl. set (s := epsilon _ _).
    assert (Hs : ground_state n (mat T) (fst s) (snd s)).
    { unfold s. apply (epsilon_spec (inhabits (0%R, fun _ => 0)) (fun ep => ground_state n (mat T) (fst ep) (snd ep))). destruct (lowest_exists n (mat T) Hn HM) as (e & p & G). exists (e, p). exact G. }
    clearbody s. exists (fst s), (map (snd s) (seq 0 n)). split; [reflexivity|]. rewrite map_length, seq_length. split; [reflexivity|].
    apply (ground_state_ext n (mat T) (mat T) (fst s) (snd s)); [reflexivity| |exact Hs]. intros i Hi. rewrite (nth_map_seq (snd s)) by exact Hi. reflexivity.
  - intros f n v M Hn HA HM Hl. right. unfold exact_arpack. set (s := epsilon _ _).
    assert (Hs : exists M', acts_as (fun x => Ok (f x)) n M' /\ ground_state n M' (fst s) (snd s)).
    { unfold s. apply (epsilon_spec (inhabits (0%R, fun _ => 0)) (fun ep => exists M', acts_as (fun x => Ok (f x)) n M' /\ ground_state n M' (fst ep) (snd ep))).
      destruct (lowest_exists n M Hn HM) as (e & p & G). exists (e, p), M. auto. }
    clearbody s. exists (fst s), (map (snd s) (seq 0 n)). split; [reflexivity|]. rewrite map_length, seq_length. split; [reflexivity|].
    destruct Hs as (M' & HA' & HG). apply (ground_state_ext n M' M (fst s) (snd s)); [apply (acts_as_unique (fun x => Ok (f x))); assumption| |exact HG].
    intros i Hi. rewrite (nth_map_seq (snd s)) by exact Hi. reflexivity.
  - intros f n neig v. discriminate.
Qed.
End Exist.
