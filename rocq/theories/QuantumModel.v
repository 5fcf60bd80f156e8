(** * Model of src/quantum/fock.cc and src/quantum/spin.cc

    SIMPLIFICATION: doubles are real numbers; a sparse matrix is the tensor of all its elements. *)
From Coq Require Import Reals Bool List Arith ZArith Lia.
From Verif Require Import Scalar RealInst RScal Tensor.
Import ListNotations.

Notation RT := (@tensor (@rs_scalar RR)).
Notation CT := (@tensor (@rs_scalar CC)).

(** tensor::linspace(min, max, n), external: n equidistant points *)
Definition linspace (a b : R) (n : nat) : list R :=
  map (fun k => (a + INR k * (b - a) / INR (n - 1))%R) (seq 0 n).

(** RSparse(rows, cols, values, d, d), external: the matrix with those elements *)
Definition sparse_matrix (row col : list nat) (v : list R) (d : nat) : RT :=
  @mk (@rs_scalar RR) [d; d] (fun is =>
    rsum (length v) (fun k => if Nat.eqb (nth k row 0) (nth 0 is 0) && Nat.eqb (nth k col 0) (nth 1 is 0)
                              then nth k v 0%R else 0%R)).

(** src/quantum/fock.cc:31-37; iota(a,b) is a, a+1, ..., b *)
Definition number_operator (nmax : nat) : RT :=
  sparse_matrix (seq 0 (nmax + 1)) (seq 0 (nmax + 1)) (linspace 0 (INR nmax) (nmax + 1)) (nmax + 1).

(** src/quantum/fock.cc:42-49 *)
Definition destruction_operator (nmax : nat) : RT :=
  sparse_matrix (seq 0 nmax) (seq 1 nmax) (map sqrt (linspace 1 (INR nmax) nmax)) (nmax + 1).

(** src/quantum/fock.cc:54-61 *)
Definition creation_operator (nmax : nat) : RT :=
  sparse_matrix (seq 1 nmax) (seq 0 nmax) (map sqrt (linspace 1 (INR nmax) nmax)) (nmax + 1).

(** src/quantum/fock.cc:66-75: coherent_state(double): the loop over i with the running value c *)
Fixpoint coherent_loop (alpha c : R) (i n : nat) : list R :=
  match n with
  | O => []
  | S n' => c :: coherent_loop alpha (c * alpha / sqrt (INR (i + 1)))%R (i + 1) n'
  end.
Definition coherent_state (alpha : R) (nmax : nat) : list R :=
  coherent_loop alpha (exp (- alpha * alpha / 2))%R 0 (nmax + 1).

(** src/quantum/fock.cc:80-90: coherent_state(cdouble) *)
Fixpoint ccoherent_loop (alpha c : Cx) (i n : nat) : list Cx :=
  match n with
  | O => []
  | S n' => c :: ccoherent_loop alpha (Cmul (Cmul c alpha) (mkC (/ sqrt (INR (i + 1))) 0))%R (i + 1) n'
  end.
Definition ccoherent_state (alpha : Cx) (nmax : nat) : list Cx :=
  let a2 := sqrt (Cmod2 alpha) in
  ccoherent_loop alpha (mkC (exp (- a2 * a2 / 2)) 0) 0 (nmax + 1).

(** tensor::diag(v, +1), diag(v, -1), diag(v), external: v on an off-diagonal *)
Definition diag_up (d : nat) (v : list R) (i j : nat) : R := if Nat.eqb j (i + 1) then nth i v 0%R else 0%R.
Definition diag_down (d : nat) (v : list R) (i j : nat) : R := if Nat.eqb i (j + 1) then nth j v 0%R else 0%R.
Definition diag0 (d : nat) (v : list R) (i j : nat) : R := if Nat.eqb i j then nth i v 0%R else 0%R.

Definition cmatrix (d : nat) (f : nat -> nat -> Cx) : CT :=
  @mk (@rs_scalar CC) [d; d] (fun is => f (nth 0 is 0) (nth 1 is 0)).

(** src/quantum/spin.cc:41-63: spin_operators(s, sx, sy, sz); [Int_part] is floor *)
Definition spin_operators (s : R) : result (CT * CT * CT) :=
  if Rlt_dec s (1 / 2) then Abort else if Rlt_dec 3 s then Abort else
  let d := Z.to_nat (Int_part (2 * s + 1)) in
  let aux1 := map (fun i => (s - INR i)%R) (seq 0 d) in
  let aux2 := map (fun i => let m := (s - INR i)%R in sqrt (s * (s + 1) - (m - 1) * m)) (seq 0 (d - 1)) in
  let sp := diag_up d aux2 in
  let sm := diag_down d aux2 in
  Ok (cmatrix d (fun i j => mkC (1 / 2 * (sp i j + sm i j)) 0),
      cmatrix d (fun i j => Cmul (mkC 0 (1 / 2)) (mkC (sm i j - sp i j) 0)),
      cmatrix d (fun i j => mkC (diag0 d aux1 i j) 0)).
