(** * Specification of matrix product operators

    The operator element between the configurations (i_1..i_N) and (j_1..j_N) is the sum over all
    bond indices of O_1(a_1,i_1,j_1,a_2) ... O_N(a_N,i_N,j_N,a_1)
    (encoding comment of src/mpo/mpo_add_term.cc:26-38). *)
From Coq Require Import Bool List Arith Lia.
From Verif Require Import Scalar Tensor Spec.
Import ListNotations.
Local Open Scope K_scope.

Section Spec.
Context {SC : Scalar}.

Definition mpo := list tensor.

Fixpoint mchain (O : mpo) (is js : list nat) (a b : nat) : K :=
  match O, is, js with
  | [], [], [] => delta a b
  | A :: O', i :: is', j :: js' =>
      sum (dim A 3) (fun c => get A [a; i; j; c] * mchain O' is' js' c b)
  | _, _, _ => 0
  end.

Definition mleft (O : mpo) : nat := match O with [] => 0%nat | A :: _ => dim A 0 end.

(** Operator element, outer bonds traced *)
Definition opelem (O : mpo) (is js : list nat) : K :=
  sum (mleft O) (fun a => mchain O is js a a).

(** Physical dimensions: rows (output) and columns (input) *)
Definition odims (O : mpo) : list nat := map (fun A => dim A 1) O.
Definition idims (O : mpo) : list nat := map (fun A => dim A 2) O.

Fixpoint mlinked (l : nat) (O : mpo) (r : nat) : Prop :=
  match O with
  | [] => l = r
  | A :: O' => exists d e c, dims A = [l; d; e; c] /\ wf A /\ (0 < d)%nat /\ (0 < e)%nat /\
                             (0 < c)%nat /\ mlinked c O' r
  end.

Definition wf_mpo (O : mpo) : Prop := O <> [] /\ exists D, (0 < D)%nat /\ mlinked D O D.

(** Open boundary conditions *)
Definition open_mpo (O : mpo) : Prop := O <> [] /\ mlinked 1 O 1.

(** Application of an operator, given by its elements, to a vector *)
Definition op_apply (ds : list nat) (M : list nat -> list nat -> K) (f : list nat -> K)
  (is : list nat) : K := sumcfg ds (fun js => M is js * f js).

(** trace(A^+ B) *)
Definition hs_inner (ds es : list nat) (A B : list nat -> list nat -> K) : K :=
  sumcfg ds (fun is => sumcfg es (fun js => kconj (A is js) * B is js)).

(** The sum over all sites [j] different from [i] of op_i S..S op_j (in the order of the sites). *)
Definition star_op (n i : nat) (op : nat -> nat -> nat -> K) (S : nat -> nat -> nat -> K)
  (is js : list nat) : K :=
  sum n (fun j =>
    if Nat.eqb j i then 0
    else product_op 0 (fun k => if Nat.eqb k i then op i else if Nat.eqb k j then op j
           else if Nat.ltb (Nat.min i j) k && Nat.ltb k (Nat.max i j) then S k else delta) is js).

End Spec.

Section SpecHopping.
Context {SC : Scalar}.

(** Sum over all pairs of different sites j, i of J(j,i) times [ad] on site j, [a] on site i and the
    string [S] on the sites between them. *)
Definition hopping_op (n : nat) (J : nat -> nat -> K) (ad a S : nat -> nat -> K) (is js : list nat) : K :=
  sum n (fun j => sum n (fun i =>
    if Nat.eqb i j then 0
    else J j i * product_op 0 (fun k => if Nat.eqb k j then ad else if Nat.eqb k i then a
           else if Nat.ltb (Nat.min i j) k && Nat.ltb k (Nat.max i j) then S else delta) is js)).

End SpecHopping.
