(** * C10, C12: what the constructors do with the remaining arguments *)
From Coq Require Import Bool List Arith ZArith Lia.
From Verif Require Import Scalar Instances Tensor Spec MpsModel.
Import ListNotations.

Section State.
Context {SC : Scalar}.

(** product_state() accepts a vector with elements and a chain with sites, and nothing else. *)
Theorem C10_rejects L v : wf v ->
  (product_state L v = Abort <-> (forall d, dims v = [d] -> d = 0%nat) \/ L = 0%nat).
Proof.
  intros Hw. unfold product_state, rank.
  assert (E : is_empty v = Nat.eqb (length (data v)) 0) by (unfold is_empty; destruct (data v); reflexivity).
  rewrite E, Hw.
  destruct (dims v) as [|d [|d' r]] eqn:Hd; cbn [length Nat.eqb andb].
  - split; [|reflexivity]. intros _. left. intros d Hd'. discriminate Hd'.
  - replace (nprod [d]) with d by (unfold nprod; cbn; lia).
    destruct (Nat.eqb_spec d 0) as [->|Hn]; cbn [negb andb].
    { split; [|reflexivity]. intros _. left. intros d Hd'. congruence. }
    destruct (Nat.ltb_spec 0 L) as [HL|HL].
    + split; [discriminate|]. intros [H|H]; [exfalso; apply Hn, H; reflexivity|lia].
    + split; [intros _; right; lia|reflexivity].
  - split; [|reflexivity]. intros _. left. intros d0 Hd'. discriminate Hd'.
Qed.

(** The constructor with no physical dimension makes a chain of the length asked for with an empty tensor on every site. *)
Theorem C12_constructor_empty L bond periodic :
  exists psi, new_mps L 0 bond periodic = Ok psi /\ length psi = L /\ forall k, site psi k = empty.
Proof.
  exists (repeat empty L). split; [reflexivity|]. split; [apply repeat_length|].
  intros k. unfold site. destruct (Nat.lt_ge_cases k L) as [H|H].
  - apply nth_repeat.
  - rewrite nth_overflow; [reflexivity|rewrite repeat_length; exact H].
Qed.
End State.

(** Both sides of [C10_rejects] occur. *)
Example C10_rejects_case : @product_state ZScalar 0 (@mkT ZScalar [2]%nat [1; 2]%Z) = Abort /\ @product_state ZScalar 3 (@mkT ZScalar [2; 1]%nat [1; 2]%Z) = Abort /\
  exists psi, @product_state ZScalar 3 (@mkT ZScalar [2]%nat [1; 2]%Z) = Ok psi.
Proof. split; [reflexivity|]. split; [reflexivity|]. eexists. reflexivity. Qed.
