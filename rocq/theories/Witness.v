(** * Concrete states used in the examples and in the refutations *)
From Coq Require Import Bool List Arith ZArith Lia.
From Verif Require Import Scalar Instances Tensor Spec MpsModel.
Import ListNotations.

(** A tensor of given dimensions with unstructured integer elements. *)
Definition zt (ds : list nat) (s : Z) : @tensor ZScalar :=
  @mk ZScalar ds (fun is =>
    (s + fold_left (fun a i => 3 * a + Z.of_nat i) is 1)%Z mod 5 - 2)%Z.

(** Gaussian version *)
Definition gt (ds : list nat) (s : Z) : @tensor GScalar :=
  @mk GScalar ds (fun is =>
    let a := fold_left (fun a i => 3 * a + Z.of_nat i)%Z is 1%Z in
    mkG ((s + a) mod 5 - 2) ((2 * s + 3 * a + 1) mod 7 - 3))%Z.

Arguments zt _%nat _%Z.
Arguments gt _%nat _%Z.

(** Open chain of three sites, dimensions 2,3,2, bonds 2 and 3. *)
Definition zopen : @mps ZScalar := [zt [1;2;2] 0; zt [2;3;3] 1; zt [3;2;1] 2].
(** A second one with other bonds. *)
Definition zopen' : @mps ZScalar := [zt [1;2;1] 1; zt [1;3;2] 0; zt [2;2;1] 3].
(** Periodic chain of three sites with outer bond 2. *)
Definition zper : @mps ZScalar := [zt [2;2;2] 0; zt [2;3;1] 1; zt [1;2;2] 2].
Definition gopen : @mps GScalar := [gt [1;2;2] 0; gt [2;3;3] 1; gt [3;2;1] 2].
Definition gper : @mps GScalar := [gt [2;2;2] 0; gt [2;3;1] 1; gt [1;2;2] 2].
(** An unstructured operator *)
Definition zop (d : nat) (s : Z) : @tensor ZScalar := zt [d; d] s.
Definition gop (d : nat) (s : Z) : @tensor GScalar := gt [d; d] s.

Arguments zop _%nat _%Z.
Arguments gop _%nat _%Z.

Ltac solve_linked :=
  lazymatch goal with
  | |- linked _ nil _ => reflexivity
  | |- linked _ (_ :: _) _ =>
      eexists; eexists; split; [reflexivity|split; [reflexivity|split; [lia|split; [lia|solve_linked]]]]
  | |- linked _ ?p _ => let q := eval hnf in p in change p with q; solve_linked
  end.

Lemma zopen_wf : wf_mps zopen. Proof. split; [discriminate|exists 1; split; [lia|solve_linked]]. Qed.
Lemma zopen'_wf : wf_mps zopen'. Proof. split; [discriminate|exists 1; split; [lia|solve_linked]]. Qed.
Lemma zper_wf : wf_mps zper. Proof. split; [discriminate|exists 2; split; [lia|solve_linked]]. Qed.
Lemma gopen_wf : wf_mps gopen. Proof. split; [discriminate|exists 1; split; [lia|solve_linked]]. Qed.
Lemma gper_wf : wf_mps gper. Proof. split; [discriminate|exists 2; split; [lia|solve_linked]]. Qed.
Lemma zopen_open : open_mps zopen. Proof. split; [discriminate|solve_linked]. Qed.
