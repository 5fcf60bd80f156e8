(** * Model of the SVD based routines: split, canonical forms, truncation *)
From Coq Require Import Reals Bool List Arith ZArith Lia.
From Verif Require Import Scalar RScal Tensor Spec MpsModel MpoSpec MpoModel.
Import ListNotations.

(** ** src/tools/truncate.cc *)

Definition Rltb (x y : R) : bool := if Rlt_dec x y then true else false.
Definition Rleb (x y : R) : bool := if Rle_dec x y then true else false.

(** DBL_EPSILON = 2^-52 *)
Definition DBL_EPSILON : R := (/ 2 ^ 52)%R.
(** src/tools/flags.cc:30-33 *)
Definition MPS_DO_NOT_TRUNCATE : R := 2%R.
Definition MPS_TRUNCATE_ZEROS : R := 0%R.
Definition MPS_DEFAULT_TOLERANCE : R := (-4)%R.

(** truncate.cc:52-68: position after the last non-zero element, 0 if there is none. *)
Fixpoint last_nonzero (s : list R) : nat :=
  match s with
  | [] => 0
  | x :: s' => match last_nonzero s' with
               | S n => S (S n)
               | O => if Req_EM_T x 0%R then 0 else 1
               end
  end.

(** truncate.cc:73-79: cumulated[i] = square(s[L-1]) + ... + square(s[i]), accumulated from the end. *)
Fixpoint cumulated (s : list R) : list R :=
  match s with
  | [] => []
  | x :: s' => let c := cumulated s' in (match c with [] => 0 | y :: _ => y end + x * x)%R :: c
  end.

(** truncate.cc:86-91: first i < max_dim with cumulated[i] <= limit. *)
Fixpoint first_below (c : list R) (limit : R) (max_dim : nat) : nat :=
  match max_dim, c with
  | S m, x :: c' => if Rleb x limit then 1 else S (first_below c' limit m)
  | _, _ => 0
  end.

(** truncate.cc:27-97: where_to_truncate(s, tol, max_dim); [flag] is
    FLAGS.get(MPS_TRUNCATION_TOLERANCE).  A negative max_dim is converted to a huge unsigned number
    by the comparison with size_t.  Debug output is not modelled. *)
Definition where_to_truncate (flag : R) (s : list R) (tol : R) (max_dim : Z) : nat :=
  let L := length s in
  let max_dim := if (max_dim <=? 0)%Z || (Z.of_nat L <? max_dim)%Z then L else Z.to_nat max_dim in
  let tol := if Rltb tol 0 then flag else tol in
  if Rleb 1 tol then max_dim
  else if Req_EM_T tol 0 then Nat.min (last_nonzero s) max_dim
  else
    let c := cumulated s in
    let total := hd 0%R c in
    let limit := (Rmax tol DBL_EPSILON * total)%R in
    first_below c limit max_dim.

Section Model.
Context {RS : RScal}.

(** tensor::change_dimension(t,i,n): keeps the leading n values of index i, pads with zeros. *)
Definition change_dimension (t : tensor) (i n : nat) : tensor :=
  mk (replace_nth i n (dims t))
     (fun is => if Nat.ltb (nth i is 0) (dim t i) then get t is else 0%K).

(** tensor::scale_inplace(t,i,s): multiply by s[value of index i]. *)
Definition scale (t : tensor) (i : nat) (s : list R) : tensor :=
  mk (dims t) (fun is => (get t is * rinj (nth (nth i is 0%nat) s 0%R))%K).

(** linalg::svd(A,&U,&V,SVD_ECONOMIC) or linalg::block_svd: an arbitrary function; the contract is
    stated in CanonSpec.v *)
Variable svd : tensor -> tensor * list R * tensor.
(** FLAGS.get(MPS_TRUNCATION_TOLERANCE) *)
Variable flag : R.

(** src/tools/split_tensor.cc:27-74: do_split(&U, psi, sense, truncate), returns U and V.
    The flag MPS_USE_BLOCK_SVD only selects which of two SVD functions is called.
    An empty matrix makes LAPACK (or the division psi.size()/b) fail. *)
Definition split (psi : tensor) (sense : Z) (truncate : bool) : result (tensor * tensor) :=
  let d := dims psi in
  let tol := if truncate then MPS_DEFAULT_TOLERANCE else MPS_TRUNCATE_ZEROS in
  if is_empty psi then Abort else
  if (0 <? sense)%Z then
    let r := length d in
    let b := nth (r - 1) d 0 in
    let ai := length (data psi) / b in
    let '(U, s, V) := svd (reshape psi [ai; b]) in
    let l := length s in
    let new_l := where_to_truncate flag s tol (Z.of_nat (Nat.min ai b)) in
    let '(U, s, V) := if Nat.eqb new_l l then (U, s, V)
                      else (change_dimension U 1 new_l, firstn new_l s, change_dimension V 0 new_l) in
    let l := new_l in
    let d := replace_nth (r - 1) l d in
    Ok (reshape U d, scale V 0 s)
  else
    let a := nth 0 d 0 in
    let ib := length (data psi) / a in
    let '(V, s, U) := svd (reshape psi [a; ib]) in
    let l := length s in
    let new_l := where_to_truncate flag s tol (Z.of_nat (Nat.min a ib)) in
    let '(U, s, V) := if Nat.eqb new_l l then (U, s, V)
                      else (change_dimension U 0 new_l, firstn new_l s, change_dimension V 1 new_l) in
    let l := new_l in
    let d := replace_nth 0 l d in
    Ok (reshape U d, scale V 1 s).

(** src/mps/mps_canonical.cc:27-46: set_canonical(psi, ndx, t, sense, truncate); at() and []
    assert the range. *)
Definition set_canonical (psi : mps) (ndx : Z) (t : tensor) (sense : Z) (truncate : bool) : result mps :=
  if (0 <=? ndx)%Z && (ndx <? Z.of_nat (length psi))%Z then
    let k := Z.to_nat ndx in
    if (0 <? sense)%Z then
      if Nat.eqb (k + 1) (length psi) then Ok (replace_nth k t psi)
      else bind (split t 1 truncate) (fun '(U, V) =>
             Ok (replace_nth (k + 1) (fold V (rank V - 1) (site psi (k + 1)) 0) (replace_nth k U psi)))
    else
      if Nat.eqb k 0 then Ok (replace_nth k t psi)
      else bind (split t (-1) truncate) (fun '(U, V) =>
             Ok (replace_nth (k - 1) (fold (site psi (k - 1)) (rank (site psi (k - 1)) - 1) V 0)
                   (replace_nth k U psi)))
  else Abort.

(** set_canonical(psi, i, psi[i], sense), include/mps/mps.h:149: truncate defaults to true. *)
Definition canonicalize_site (sense : Z) (psi : result mps) (i : Z) : result mps :=
  bind psi (fun psi => bind (site_at psi i) (fun t => set_canonical psi i t sense true)).

(** src/mps/mps_canonical.cc:48-58: either_form_inner() without the final normalisation. *)
Definition canonical_form_at (psi : mps) (site : Z) : result mps :=
  let n := Z.of_nat (length psi) in
  let psi := fold_left (canonicalize_site (-1)) 
               (map (fun j => n - 1 - Z.of_nat j)%Z (seq 0 (Z.to_nat (n - 1 - site)))) (Ok psi) in
  fold_left (canonicalize_site 1) (map Z.of_nat (seq 0 (Z.to_nat site))) psi.

(** norm2 of a tensor: square root of the sum of |element|^2. *)
Definition norm2_tensor (t : tensor) : R :=
  sqrt (fold_right (fun x r => (kmod2 x + r)%R) 0%R (data t)).

(** mps_canonical.cc:56: psi.at(i) /= norm2(psi[i]), where i is max(0, site).
    SIMPLIFICATION: division by a zero norm (NaN in C++) is [Abort]. *)
Definition normal_form_at (psi : mps) (s : Z) : result mps :=
  bind (canonical_form_at psi s) (fun psi =>
    let i := Z.max 0 s in
    bind (site_at psi i) (fun t =>
      let n := norm2_tensor t in
      if Req_EM_T n 0%R then Abort
      else Ok (replace_nth (Z.to_nat i) (tscale (rinj (/ n)%R) t) psi))).

(** src/mps/mps_canonical_d.cc:32-40: canonical_form(psi,sense), normal_form(psi,sense). *)
Definition canonical_form (psi : mps) (sense : Z) : result mps :=
  canonical_form_at psi (if (sense <? 0)%Z then 0 else Z.of_nat (length psi) - 1)%Z.
Definition normal_form (psi : mps) (sense : Z) : result mps :=
  normal_form_at psi (if (sense <? 0)%Z then 0 else Z.of_nat (length psi) - 1)%Z.

(** src/mps/mps_canonical2.cc:30-75: set_canonical_2_sites(P, Pij, site, sense, Dmax, tol, both).
    The NaN check has no counterpart in exact arithmetic. *)
Definition set_canonical_2_sites (P : mps) (Pij : tensor) (st : Z) (sense : Z) (Dmax : Z) (tol : R)
  (canonicalize_both : bool) : result mps :=
  if negb (Nat.eqb (rank Pij) 4) || is_empty Pij then Abort else
  let a1 := dim Pij 0 in let i1 := dim Pij 1 in let j1 := dim Pij 2 in let c1 := dim Pij 3 in
  let '(Pi, s, Pj) := svd (reshape Pij [a1 * i1; j1 * c1]) in
  let b1 := where_to_truncate flag s tol Dmax in
  let '(Pi, s, Pj) := if Nat.eqb b1 (length s) then (Pi, s, Pj)
                      else (change_dimension Pi 1 b1, firstn b1 s, change_dimension Pj 0 b1) in
  let Pi := reshape Pi [a1; i1; b1] in
  let Pj := reshape Pj [b1; j1; c1] in
  bind (site_at P st) (fun _ =>
  if (0 <? sense)%Z then
    let P := replace_nth (Z.to_nat st) Pi P in
    let Pj := scale Pj 0 s in
    if canonicalize_both then set_canonical P (st + 1) Pj sense true
    else bind (site_at P (st + 1)) (fun _ => Ok (replace_nth (Z.to_nat (st + 1)) Pj P))
  else
    let P := replace_nth (Z.to_nat st) Pj P in
    let Pi := scale Pi 2 s in
    if canonicalize_both then set_canonical P (st - 1) Pi sense true
    else bind (site_at P (st - 1)) (fun _ => Ok (replace_nth (Z.to_nat (st - 1)) Pi P))).

End Model.

Section ApplyCanonical.
Context {RS : RScal}.
Variable svd : tensor -> tensor * list R * tensor.
Variable flag : R.

(** src/mpo/mpo_apply_canonical.cc:35-48: contraction of one site, sweep to the right. *)
Definition apply_right_site (b : nat) (L O A : tensor) : tensor :=
  let a2 := dim A 2 in
  let c1 := dim O 0 in let dj := dim O 1 in let di := dim O 2 in let c2 := dim O 3 in
  let C := fold L (rank L - 1) A 0 in
  let C := foldin (reshape (permute O 1 2) [c1 * di; dj; c2]) 0 (reshape C [b; c1 * di; a2]) 1 in
  reshape C [b; dj; c2 * a2].

(** mpo_apply_canonical.cc:26-58: do_apply_rightwards().  The loop over the sites is written as a
    recursion over the two lists of tensors; [b] is the left bond of the new state. *)
Fixpoint apply_rightwards (truncate : bool) (b : nat) (L : tensor) (O : mpo) (psi : mps) : result mps :=
  match O, psi with
  | P :: O', A :: psi' =>
      let C := apply_right_site b L P A in
      match psi' with
      | [] => Ok [C]
      | _ => bind (split svd flag C 1 truncate) (fun '(U, V) =>
               bind (apply_rightwards truncate (dim V 0) (reshape V [dim V 0; dim P 3; dim A 2]) O' psi')
                    (fun chi => Ok (U :: chi)))
      end
  | _, _ => Ok []
  end.

(** mpo_apply_canonical.cc:72-85: contraction of one site, sweep to the left. *)
Definition apply_left_site (b : nat) (L O A : tensor) : tensor :=
  let a1 := dim A 0 in
  let c1 := dim O 0 in let dj := dim O 1 in let di := dim O 2 in let c2 := dim O 3 in
  let C := fold A 2 L 0 in
  let C := foldin (reshape O [c1; dj; di * c2]) 2 (reshape C [a1; di * c2; b]) 1 in
  reshape C [a1 * c1; dj; b].

(** mpo_apply_canonical.cc:61-95: do_apply_leftwards(), a recursion over the reversed lists; the
    result is the reversed list of new tensors. *)
Fixpoint apply_leftwards (truncate : bool) (b : nat) (L : tensor) (rO : mpo) (rpsi : mps) : result mps :=
  match rO, rpsi with
  | P :: rO', A :: rpsi' =>
      let C := apply_left_site b L P A in
      match rpsi' with
      | [] => Ok [C]
      | _ => bind (split svd flag C (-1) truncate) (fun '(U, V) =>
               bind (apply_leftwards truncate (dim V 1) (reshape V [dim A 0; dim P 0; dim V 1]) rO' rpsi')
                    (fun chi => Ok (U :: chi)))
      end
  | _, _ => Ok []
  end.

(** Tensor::ones(1,1,1) *)
Definition ones111 : tensor := mk [1; 1; 1] (fun _ => 1%K).

(** mpo_apply_canonical.cc:97-110: apply_canonical(mpo, psi, sense, truncate). *)
Definition apply_canonical (O : mpo) (psi : mps) (sense : Z) (truncate : bool) : result mps :=
  if Nat.eqb (length O) (length psi) then
    if (0 <? sense)%Z then apply_rightwards truncate 1 ones111 O psi
    else bind (apply_leftwards truncate 1 ones111 (rev O) (rev psi)) (fun r => Ok (rev r))
  else Abort.

End ApplyCanonical.
