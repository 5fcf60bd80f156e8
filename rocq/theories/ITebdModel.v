(** * Model of src/iTEBD: infinite states, canonical form, two-site operators, expected values *)
From Coq Require Import Reals Bool List Arith ZArith Lia.
From Verif Require Import Scalar RScal Tensor Spec MpsModel CanonModel DecompModel.
Import ListNotations.

Section Model.
Context {RS : RScal}.

(** linalg::svd and linalg::block_svd, see CanonModel *)
Variable svd : tensor -> tensor * list R * tensor.
(** FLAGS.get(MPS_TRUNCATION_TOLERANCE) *)
Variable flag : R.
(** linalg::eigs(f, n, LargestMagnitude, 1, &v) (external): the map, the size of the vectors and the initial v; the
    result is the final v.  An arbitrary function. *)
Variable eigs : (tensor -> tensor) -> nat -> tensor -> tensor.
(** linalg::eig_sym(V, &R) (external): the eigenvalues and R.  An arbitrary function. *)
Variable eig_sym : tensor -> list R * tensor.
(** linalg::eig_power(f, n, &v) (external): the final v.  An arbitrary function. *)
Variable eig_power : (tensor -> tensor) -> nat -> tensor -> tensor.

(** ** The class (include/mps/itebd.h:42-138)
    SIMPLIFICATION: the vectors lA and lB are real; in the C++ class they have the element type of the tensors,
    but all that the library creates itself are singular values or ones. *)
Record itebd := mkI { iA : tensor; ilA : list R; iB : tensor; ilB : list R; iAlA : tensor; iBlB : tensor; icanon : bool }.

(** itebd.hpp:66-81: iTEBD(A, lA, B, lB, canonical) *)
Definition new_itebd (A : tensor) (lA : list R) (B : tensor) (lB : list R) (canonical : bool) : result itebd :=
  if Nat.eqb (rank A) 3 && Nat.eqb (dim A 0) (length lB) && Nat.eqb (dim A 2) (length lA) &&
     Nat.eqb (dim B 0) (length lA) && Nat.eqb (dim B 2) (length lB)
  then Ok (mkI A lA B lB (scale A (rank A - 1) lA) (scale B (rank B - 1) lB) canonical)
  else Abort.

(** itebd.hpp:27-31: normalize(v).  The division by a zero norm is Abort. *)
Definition normalize1 (v : tensor) : result tensor :=
  let n := sqrt (fold_right (fun x r => (kmod2 x + r)%R) 0%R (data v)) in
  if Req_EM_T n 0 then Abort else Ok (tscale (rinj (/ n)%R) v).

(** itebd.hpp:54-64: iTEBD(A, B), product states of two wave functions *)
Definition new_product2 (A B : tensor) : result itebd :=
  if Nat.eqb (rank A) 1 && Nat.eqb (rank B) 1 then
    bind (normalize1 A) (fun A' => bind (normalize1 B) (fun B' =>
      let A' := reshape A' [1; dim A 0; 1] in let B' := reshape B' [1; dim B 0; 1] in
      Ok (mkI A' [1%R] B' [1%R] A' B' true)))
  else Abort.

(** itebd.hpp:44-52: iTEBD(A) *)
Definition new_product1 (A : tensor) : result itebd := new_product2 A A.

(** itebd.h:88-106: matrix(site), combined_matrix(site), left_vector(site), right_vector(site) *)
Definition i_matrix (psi : itebd) (site : Z) : tensor := if Z.odd site then iB psi else iA psi.
Definition combined_matrix (psi : itebd) (site : Z) : tensor := if Z.odd site then iBlB psi else iAlA psi.
Definition left_vector (psi : itebd) (site : Z) : list R := if Z.odd site then ilA psi else ilB psi.
Definition right_vector (psi : itebd) (site : Z) : list R := if Z.odd site then ilB psi else ilA psi.

(** itebd.h:122-124: left_boundary(site) = diag(left_vector(site) * left_vector(site)) *)
Definition left_boundary (psi : itebd) (site : Z) : tensor :=
  let l := left_vector psi site in
  mk [length l; length l] (fun x => if Nat.eqb (nth 0 x 0%nat) (nth 1 x 0%nat)
    then rinj (nth (nth 0 x 0%nat) l 0 * nth (nth 0 x 0%nat) l 0)%R else 0%K).

(** ** Tools *)

(** src/tools/propagate_mps.hpp:25-46: do_propagate_right(v, A, op) *)
Definition propagate_right (v A op : tensor) : tensor :=
  let v := fold v (rank v - 1) A 0 in
  let v := if is_empty op then v else foldin op (rank op - 1) v 1 in
  let a := dim v 0 in let i := dim v 1 in let b := dim v 2 in
  foldc (reshape A [a * i; b]) 0 (reshape v [a * i; b]) 0.

(** src/tools/build_E_matrix.hpp:26-38: do_build_E_matrix(A1, A2) *)
Definition build_E_matrix (A1 A2 : tensor) : tensor :=
  let Rm := fold A1 1 (tconj A2) 1 in
  let a := dim Rm 2 in let b := dim Rm 3 in
  reshape (permute Rm 1 2) [a * a; b * b].

(** tensor library: trace of a matrix *)
Definition mtrace (v : tensor) : K := sum (dim v 0) (fun i => get v [i; i]).

(** x / y; the division by zero (not a number in C++) is Abort *)
Definition kinv (x : K) : K := (kconj x * rinj (/ kmod2 x)%R)%K.
Definition kdiv (x y : K) : result K := if keqb y 0%K then Abort else Ok (x * kinv y)%K.

(** mmult of two operators; an empty tensor fails its assertions *)
Definition mmult_op (a b : tensor) : result tensor := if is_empty a || is_empty b then Abort else Ok (mmult a b).

(** ** Canonical form *)

(** itebd_canonical.hpp:43-65: ortho_basis(V, &U, &Uinv).  The division by a zero eigenvalue is Abort. *)
Definition ortho_basis (V : tensor) : result (tensor * tensor) :=
  let '(s, Rm) := eig_sym V in
  let s := map (fun x => sqrt (Rabs x)) s in
  if existsb (fun x => if Req_EM_T x 0 then true else false) s then Abort
  else Ok (scale Rm 1 s, scale (adjoint Rm) 0 (map Rinv s)).

(** itebd_canonical.hpp:204-211: px4(v, sense, A, B, a) *)
Definition px4 (v : tensor) (sense : Z) (A B : tensor) (a : nat) : tensor :=
  reshape (prop_matrix (prop_matrix (reshape v [a; a]) sense A A None) sense B B None) [a * a].

(** itebd_canonical.hpp:213-252: itebd_power_eig(A, lA, B, lB, sense) *)
Definition itebd_power_eig (A : tensor) (lA : list R) (B : tensor) (lB : list R) (sense : Z) : tensor :=
  let a := length lB in
  let v := reshape (tscale (rinj (/ sqrt (INR a))%R) (eye a)) [a * a] in
  let v := if (0 <? sense)%Z
           then eigs (fun v => px4 v sense (scale A 0 lB) (scale B 0 lA) a) (a * a) v
           else eigs (fun v => px4 v sense (scale B (rank B - 1) lB) (scale A (rank A - 1) lA) a) (a * a) v in
  let v := reshape v [a; a] in
  tscale (rinj (/ 2)%R) (tadd (transpose v) (tconj v)).

(** itebd_canonical.hpp:271-324: iTEBD::canonical_form().  The arguments tolerance and max_dim are not used. *)
Definition canonical_form (psi : itebd) : result itebd :=
  bind (ortho_basis (itebd_power_eig (iA psi) (ilA psi) (iB psi) (ilB psi) (-1))) (fun '(X, Xinv) =>
  bind (ortho_basis (itebd_power_eig (iA psi) (ilA psi) (iB psi) (ilB psi) 1)) (fun '(Y, Yinv) =>
  let newA := fold Xinv (rank Xinv - 1) (iA psi) 0 in
  let newB := fold (iB psi) (rank (iB psi) - 1) Yinv (rank Yinv - 1) in
  let aux := fold Y 0 (scale X 0 (ilB psi)) 0 in
  let '(U, newlB, V) := svd aux in
  let newA := fold V (rank V - 1) newA 0 in
  let newB := fold newB (rank newB - 1) U 0 in
  new_itebd newA (ilA psi) newB newlB true)).

(** itebd_canonical.hpp:153-191: split_tensor(GAB, lAB, &A, &lA, &B, &lB, tolerance, max_dim, true), the result is
    A, lA, B, lB.  The reshape of B to (., i, .) fails its assertion unless the number of elements agrees; the
    division by zero is Abort. *)
Definition split_tensor (GAB : tensor) (lAB : list R) (tolerance : R) (max_dim : Z) : result (tensor * list R * tensor * list R) :=
  let i := dim GAB 1 in let j := dim GAB 2 in
  let a := length lAB in let b := a in
  let GAB := scale GAB 0 lAB in
  let GAB := scale GAB (rank GAB - 1) lAB in
  if negb (Nat.eqb (length (data GAB)) (a * i * (j * b))) then Abort else
  bind (limited_svd svd flag (reshape GAB [a * i; j * b]) tolerance max_dim) (fun '(pA, lA, pB) =>
    let pA := reshape pA [a; i; length lA] in
    if negb (Nat.eqb (length (data pB)) (length lA * i * b)) then Abort else
    let pB := reshape pB [length lA; i; b] in
    if existsb (fun x => if Req_EM_T x 0 then true else false) lAB then Abort else
    Ok (scale pA 0 (map Rinv lAB), lA, scale pB 2 (map Rinv lAB), lAB)).

(** itebd_canonical.hpp:338-346: the last branch of apply_operator, for a canonical state and an even site *)
Definition apply_even (psi : itebd) (U : tensor) (tolerance : R) (max_dim : Z) : result itebd :=
  let GAB := fold (iAlA psi) (rank (iAlA psi) - 1) (iB psi) 0 in
  let a := dim GAB 0 in let i := dim GAB 1 in let j := dim GAB 2 in let b := dim GAB 3 in
  if negb (Nat.eqb (rank U) 2 && Nat.eqb (dim U 0) (i * j) && Nat.eqb (dim U 1) (i * j)) then Abort else
  let GAB := reshape (foldin U (rank U - 1) (reshape GAB [a; i * j; b]) 1) [a; i; j; b] in
  bind (split_tensor GAB (ilB psi) tolerance max_dim) (fun '(A, lA, B, lB) => new_itebd A lA B lB false).

(** itebd_canonical.hpp:326-346: iTEBD::apply_operator(U, site, tolerance, max_dim) (the branch compiled by #if 1) *)
Definition apply_operator (psi : itebd) (U : tensor) (site : Z) (tolerance : R) (max_dim : Z) : result itebd :=
  if Z.odd site then
    bind (new_itebd (iB psi) (ilB psi) (iA psi) (ilA psi) false) (fun aux =>
    bind (canonical_form aux) (fun aux =>
    bind (apply_even aux U tolerance max_dim) (fun aux =>
      new_itebd (iB aux) (ilB aux) (iA aux) (ilA aux) false)))
  else if negb (icanon psi) then
    bind (canonical_form psi) (fun psi => apply_even psi U tolerance max_dim)
  else apply_even psi U tolerance max_dim.

(** itebd.hpp:83-98: entropy(site) as a function of mps::entropy, entropy() and schmidt(site) *)
Variable entropy : list R -> option R.
Definition entropy_canonical (psi : itebd) : option R := entropy (map (fun x => Rabs (x * x)) (ilA psi)).
Definition i_entropy (psi : itebd) (site : Z) : result (option R) :=
  if icanon psi then Ok (entropy_canonical psi)
  else bind (canonical_form psi) (fun psi =>
    Ok (match entropy_canonical psi, entropy_canonical psi with Some x, Some y => Some (x + y)%R | _, _ => None end)).
Definition i_schmidt (psi : itebd) (site : Z) : list R :=
  map (fun x => (Rabs x * Rabs x)%R) (left_vector psi site).

(** ** Expected values, canonical method (src/iTEBD/canonical_expected.hpp) *)
Definition ensure_canonical (psi : itebd) : result itebd := if icanon psi then Ok psi else canonical_form psi.

(** canonical_expected.hpp:25-55: do_expected12(psi, Op12, site) *)
Definition do_expected12 (psi : itebd) (Op12 : tensor) (site : Z) : result K :=
  bind (ensure_canonical psi) (fun psi =>
  let AlA := combined_matrix psi 0 in let BlB := combined_matrix psi 1 in
  let a := dim BlB 2 in let i := dim AlA 1 in let b := dim BlB 0 in let j := dim BlB 1 in
  let v1 := left_boundary psi 0 in
  if Z.odd site then
    let v1 := propagate_right v1 AlA empty in
    let v2 := v1 in
    let M := reshape (fold BlB (rank BlB - 1) AlA 0) [b; j * i; b] in
    let v1 := propagate_right v1 M Op12 in
    let v2 := propagate_right v2 M empty in
    let v1 := propagate_right v1 BlB empty in
    let v2 := propagate_right v2 BlB empty in
    kdiv (mtrace v1) (mtrace v2)
  else
    let M := reshape (fold AlA (rank AlA - 1) BlB 0) [a; i * j; a] in
    kdiv (mtrace (propagate_right v1 M Op12)) (mtrace (propagate_right v1 M empty))).

(** canonical_expected.hpp:77-90: the loop of do_string_order from [site] on; [fuel] bounds the iterations, running
    out of it is Abort. *)
Fixpoint string_loop (fuel : nat) (psi : itebd) (Opi Opmiddle Opj : tensor) (i j site : Z) (v1 v2 : tensor) : result K :=
  if (site <=? j)%Z || negb (Z.odd site) then
    match fuel with
    | O => Abort
    | S n =>
      let op := if (site =? i)%Z then Opi else if (site =? j)%Z then Opj
                else if (i <? site)%Z && (site <? j)%Z then Opmiddle else empty in
      string_loop n psi Opi Opmiddle Opj i j (site + 1)
        (propagate_right v1 (combined_matrix psi site) op) (propagate_right v2 (combined_matrix psi site) empty)
    end
  else kdiv (mtrace v1) (mtrace v2).

(** canonical_expected.hpp:69-91: do_string_order(psi, Opi, i, Opmiddle, Opj, j) for i < j *)
Definition string_order_lt (psi : itebd) (Opi : tensor) (i : Z) (Opmiddle Opj : tensor) (j : Z) : result K :=
  bind (ensure_canonical psi) (fun psi =>
    let j := (j - i)%Z in
    let i := (if Z.odd i then 1 else 0)%Z in
    let j := (j + i)%Z in
    string_loop (Z.to_nat (j + 2)) psi Opi Opmiddle Opj i j 0 (left_boundary psi 0) (left_boundary psi 0)).

(** src/iTEBD/itebd_expected1_d.cc:25-31: expected(psi, Op, site) with the canonical method *)
Definition expected1 (psi : itebd) (Op : tensor) (site : Z) : result K :=
  if Z.odd site then string_order_lt psi empty 0 empty Op 1 else string_order_lt psi Op 0 empty empty 1.

(** canonical_expected.hpp:57-92: do_string_order *)
Definition do_string_order (psi : itebd) (Opi : tensor) (i : Z) (Opmiddle Opj : tensor) (j : Z) : result K :=
  if (i =? j)%Z then bind (mmult_op Opi Opj) (fun Op => expected1 psi Op i)
  else if (j <? i)%Z then string_order_lt psi Opj j Opmiddle Opi i
  else string_order_lt psi Opi i Opmiddle Opj j.

(** src/iTEBD/itebd_expected2_d.cc:25-36: expected(psi, Op1, i, Op2, j) with the canonical method *)
Definition expected2 (psi : itebd) (Op1 : tensor) (i : Z) (Op2 : tensor) (j : Z) : result K :=
  do_string_order psi Op1 i empty Op2 j.

(** canonical_expected.hpp:108-131: the loop of do_string_order_many; [n] more sites, [nextv2] is empty or not *)
Fixpoint many_loop (n : nat) (psi : itebd) (Opi Opmiddle Opj OpiOpj : tensor) (site : Z) (v1 v2 : tensor) (nextv2 : option tensor)
  : result (list K) :=
  match n with
  | O => Ok []
  | S n =>
    let aux := combined_matrix psi site in
    let first := (site =? 0)%Z in
    let v := propagate_right v1 aux (if first then OpiOpj else Opj) in
    let v2 := match nextv2 with Some w => w | None => propagate_right v2 aux empty end in
    let '(out, nextv2) :=
      if negb (Z.odd site) then
        let aux := combined_matrix psi (site + 1) in
        let w := propagate_right v2 aux empty in
        (kdiv (mtrace (propagate_right v aux empty)) (mtrace w), Some w)
      else (kdiv (mtrace v) (mtrace v2), None) in
    let v1 := propagate_right v1 aux (if first then Opi else Opmiddle) in
    bind out (fun x => bind (many_loop n psi Opi Opmiddle Opj OpiOpj (site + 1) v1 v2 nextv2) (fun r => Ok (x :: r)))
  end.

(** canonical_expected.hpp:94-132: do_string_order_many(psi, Opi, Opmiddle, Opj, N) *)
Definition do_string_order_many (psi : itebd) (Opi Opmiddle Opj : tensor) (N : nat) : result (list K) :=
  bind (ensure_canonical psi) (fun psi =>
  bind (if Nat.eqb N 0 then Ok empty else mmult_op Opi Opj) (fun OO =>
    many_loop N psi Opi Opmiddle Opj OO 0 (left_boundary psi 0) (left_boundary psi 0) None)).

(** src/iTEBD/itebd_energy_d.cc:24-27: energy(psi, Op12) with the canonical method (the complex version also
    checks that the sum is real) *)
Definition i_energy (psi : itebd) (Op12 : tensor) : result K :=
  bind (do_expected12 psi Op12 0) (fun x => bind (do_expected12 psi Op12 1) (fun y => Ok (x + y)%K)).

(** ** Expected values, direct method (src/iTEBD/slow_expected.hpp) *)
Definition frob (t : tensor) : R := sqrt (fold_right (fun x r => (kmod2 x + r)%R) 0%R (data t)).
Definition tdiv (t : tensor) (n : R) : tensor := tscale (rinj (/ n)%R) t.

(** slow_expected.hpp:27-35: infinite_power(R); the division by a zero norm is Abort *)
Fixpoint power_loop (n : nat) (Rm : tensor) : result tensor :=
  match n with
  | O => Ok Rm
  | S n => let Rm := mmult Rm Rm in
           if Req_EM_T (frob Rm) 0 then Abort else power_loop n (tdiv Rm (frob Rm))
  end.
Definition infinite_power (Rm : tensor) : result tensor := power_loop 10 Rm.

(** slow_expected.hpp:57-70 and bdry_expected.hpp:79-90: the operator of site k; None is an empty tensor *)
Definition op_at (Op1 : tensor) (i : Z) (Opmid Op2 : tensor) (j k : Z) : result tensor :=
  if ((k <? i) || (j <? k))%Z then Ok empty
  else if (k =? i)%Z then (if (i =? j)%Z then mmult_op Op1 Op2 else Ok Op1)
  else if (k =? j)%Z then Ok Op2 else Ok Opmid.

(** slow_expected.hpp:55-80: the loop over [n] sites from [k] on *)
Fixpoint slow_loop (n : nat) (k : Z) (Op1 : tensor) (i : Z) (Opmid Op2 : tensor) (j : Z) (AlA BlB EA EB R0 R1 : tensor) : result K :=
  match n with
  | O => kdiv (mtrace R1) (mtrace R0)
  | S n =>
    let AorB := if Z.odd k then BlB else AlA in
    let E := if Z.odd k then EB else EA in
    bind (op_at Op1 i Opmid Op2 j k) (fun Op =>
    let R1 := if is_empty Op then mmult R1 E else mmult R1 (build_E_matrix (foldin Op (rank Op - 1) AorB 1) AorB) in
    let R0 := mmult R0 E in
    let n0 := frob R0 in
    if Req_EM_T n0 0 then Abort else
    slow_loop n (k + 1) Op1 i Opmid Op2 j AlA BlB EA EB (tdiv R0 n0) (tdiv R1 n0))
  end.

(** slow_expected.hpp:37-81: slow_string_order for i <= j *)
Definition slow_string_order_le (Op1 : tensor) (i : Z) (Opmid Op2 : tensor) (j : Z) (A : tensor) (lA : list R) (B : tensor) (lB : list R) : result K :=
  let AlA := scale A (rank A - 1) lA in let BlB := scale B (rank B - 1) lB in
  let EA := build_E_matrix AlA AlA in let EB := build_E_matrix BlB BlB in
  bind (infinite_power (mmult EA EB)) (fun R0 =>
    let first := (if Z.odd i then i - 1 else i)%Z in
    let last := (if Z.odd j then j else j + 1)%Z in
    slow_loop (Z.to_nat (last - first + 1)) first Op1 i Opmid Op2 j AlA BlB EA EB R0 R0).
Definition slow_string_order (psi : itebd) (Op1 : tensor) (i : Z) (Opmid Op2 : tensor) (j : Z) : result K :=
  if (j <? i)%Z then slow_string_order_le Op2 j Opmid Op1 i (i_matrix psi 0) (right_vector psi 0) (i_matrix psi 1) (right_vector psi 1)
  else slow_string_order_le Op1 i Opmid Op2 j (i_matrix psi 0) (right_vector psi 0) (i_matrix psi 1) (right_vector psi 1).

(** slow_expected.hpp:83-90: ensure_3_indices(A) *)
Definition ensure_3_indices (A : tensor) : tensor :=
  let l := length (data A) in let a := dim A 0 in let b := dim A (rank A - 1) in reshape A [a; Nat.div l (a * b); b].

(** slow_expected.hpp:92-102: slow_expected(Op1, A, lA) *)
Definition slow_expected (Op1 A : tensor) (lA : list R) : result K :=
  let A := scale A (rank A - 1) lA in
  let R0 := build_E_matrix A A in
  bind (infinite_power R0) (fun Rm =>
    let R2 := build_E_matrix (foldin Op1 (rank Op1 - 1) A 1) A in
    kdiv (mtrace (mmult R2 Rm)) (mtrace (mmult R0 Rm))).

(** slow_expected.hpp:104-119: slow_expected12(psi, Op12, site) *)
Definition slow_expected12 (psi : itebd) (Op12 : tensor) (site : Z) : result K :=
  let s := if Z.odd site then 1%Z else 0%Z in
  let A := i_matrix psi s in let lA := right_vector psi s in
  let B := i_matrix psi (1 - s) in let lB := right_vector psi (1 - s) in
  let AlA := scale A (rank A - 1) lA in
  slow_expected Op12 (ensure_3_indices (fold AlA (rank AlA - 1) B 0)) lB.

(** ** Expected values, boundary method (src/iTEBD/bdry_expected.hpp) *)

(** bdry_expected.hpp:44-58: left_boundary(A, B) *)
Definition bdry_left (A B : tensor) : result tensor :=
  let v := prop_matrix (prop_matrix empty 1 A A None) 1 B B None in
  if Req_EM_T (frob v) 0 then Abort else
  Ok (eig_power (fun v => prop_matrix (prop_matrix v 1 A A None) 1 B B None) (length (data v)) (tdiv v (frob v))).

(** bdry_expected.hpp:77-96: the loop.  prop_matrix gets a pointer to Op, so an empty Op fails an assertion. *)
Fixpoint bdry_loop (n : nat) (k : Z) (Op1 : tensor) (i : Z) (Opmid Op2 : tensor) (j : Z) (AlA BlB R0 R1 : tensor) : result K :=
  match n with
  | O => bind (close_value R1) (fun x => bind (close_value R0) (fun y => kdiv x y))
  | S n =>
    let AorB := if Z.odd k then BlB else AlA in
    bind (op_at Op1 i Opmid Op2 j k) (fun Op =>
    if is_empty Op then Abort else
    let R1 := prop_matrix R1 1 AorB AorB (Some Op) in
    let R0 := prop_matrix R0 1 AorB AorB None in
    let n0 := frob R0 in
    if Req_EM_T n0 0 then Abort else
    bdry_loop n (k + 1) Op1 i Opmid Op2 j AlA BlB (tdiv R0 n0) (tdiv R1 n0))
  end.

(** bdry_expected.hpp:60-103: bdry_string_order (debug output not modelled) *)
Definition bdry_string_order_le (Op1 : tensor) (i : Z) (Opmid Op2 : tensor) (j : Z) (A : tensor) (lA : list R) (B : tensor) (lB : list R) : result K :=
  let AlA := scale A (rank A - 1) lA in let BlB := scale B (rank B - 1) lB in
  bind (bdry_left AlA BlB) (fun R0 =>
    let first := (if Z.odd i then i - 1 else i)%Z in
    let last := (if Z.odd j then j else j + 1)%Z in
    bdry_loop (Z.to_nat (last - first + 1)) first Op1 i Opmid Op2 j AlA BlB R0 R0).
Definition bdry_string_order (psi : itebd) (Op1 : tensor) (i : Z) (Opmid Op2 : tensor) (j : Z) : result K :=
  if (j <? i)%Z then bdry_string_order_le Op2 j Opmid Op1 i (i_matrix psi 0) (right_vector psi 0) (i_matrix psi 1) (right_vector psi 1)
  else bdry_string_order_le Op1 i Opmid Op2 j (i_matrix psi 0) (right_vector psi 0) (i_matrix psi 1) (right_vector psi 1).

(** src/iTEBD/itebd_string_order_d.cc:27-44: string_order(psi, Opi, i, Opmiddle, Opj, j); [method] is
    FLAGS.get(MPS_ITEBD_EXPECTED_METHOD).  With the other methods, i = j goes to their own code. *)
Definition string_order (method : nat) (psi : itebd) (Opi : tensor) (i : Z) (Opmiddle Opj : tensor) (j : Z) : result K :=
  if Nat.eqb method 1 then do_string_order psi Opi i Opmiddle Opj j
  else if Nat.eqb method 2 then slow_string_order psi Opi i Opmiddle Opj j
  else bdry_string_order psi Opi i Opmiddle Opj j.

(** itebd_aklt_state.cc:24-40, itebd_cluster_state.cc:24-32, itebd_ghz_state.cc:24-30 *)
Definition aklt_tensor : tensor :=
  mk [2; 3; 2] (fun x => match x with
    | [0; 0; 1] => rinj (sqrt (2 / 3)) | [0; 1; 0] => rinj (- sqrt (1 / 3))%R | [1; 1; 1] => rinj (sqrt (1 / 3)) | [1; 2; 0] => rinj (- sqrt (2 / 3))%R
    | _ => 0%K end)%nat.
Definition cluster_tensor : tensor :=
  mk [2; 2; 2] (fun x => match x with
    | [0; 0; 0] | [0; 0; 1] | [0; 1; 0] => rinj (1 / sqrt 2)%R | [1; 1; 1] => rinj (- (1 / sqrt 2))%R | _ => 0%K end)%nat.
Definition ghz_tensor : tensor :=
  mk [2; 2; 2] (fun x => match x with [0; 0; 0] | [1; 1; 1] => 1%K | _ => 0%K end)%nat.
Definition infinite_state (A : tensor) : result itebd := new_itebd A [1%R; 1%R] A [1%R; 1%R] false.

End Model.
