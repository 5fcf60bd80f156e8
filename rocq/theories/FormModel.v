(** * Model of LinearForm and QuadraticForm (src/dmrg/lform.cc, src/dmrg/qform.cc) *)
From Coq Require Import Bool List Arith ZArith Lia.
From Verif Require Import Scalar Tensor Spec MpsModel MpoSpec.
Import ListNotations.

Section Model.
Context {SC : Scalar}.

(** lform.cc:68-75, qform.cc:95-102: maybe_add(). *)
Definition maybe_add (a b : tensor) : tensor := if is_empty a then b else tadd a b.

(** ** LinearForm *)

(** include/mps/lform.h:74-82: data members; [lf_matrix] is matrix_[bra][site].  The current site
    never leaves 0..size-1 (C44_site). *)
Record lform := mkLF { lf_weight : list K; lf_bra : list mps; lf_here : nat; lf_matrix : list (list tensor) }.

(** lform.h:54,56: size(), number_of_bras(). *)
Definition lf_size (f : lform) : nat := length (nth 0 (lf_bra f) []).
Definition lf_nbras (f : lform) : nat := length (lf_bra f).
(** lform.h:84-87: left_matrix(i,site) = matrix_[i][site], right_matrix(i,site) = matrix_[i][site+1] *)
Definition lf_left (f : lform) (i s : nat) : tensor := nth s (nth i (lf_matrix f) []) empty.
Definition lf_right (f : lform) (i s : nat) : tensor := nth (s + 1) (nth i (lf_matrix f) []) empty.
(** bra_[i][s] *)
Definition lf_bra_site (f : lform) (i s : nat) : tensor := site (nth i (lf_bra f) []) s.

(** lform.cc:83-97: propagate_left(ketP). *)
Definition lf_propagate_left (f : lform) (ketP : tensor) : lform :=
  if Nat.eqb (lf_here f) 0 then f
  else
    let h := lf_here f in
    mkLF (lf_weight f) (lf_bra f) (h - 1)
      (map (fun i => replace_nth (h - 1 + 1) (prop_matrix (lf_right f i h) (-1) (lf_bra_site f i h) ketP None)
                                 (nth i (lf_matrix f) [])) (seq 0 (lf_nbras f))).

(** lform.cc:99-114: propagate_right(ketP). *)
Definition lf_propagate_right (f : lform) (ketP : tensor) : lform :=
  if Nat.eqb (lf_here f + 1) (lf_size f) then f
  else
    let h := lf_here f in
    mkLF (lf_weight f) (lf_bra f) (h + 1)
      (map (fun i => replace_nth (h + 1) (prop_matrix (lf_left f i h) 1 (lf_bra_site f i h) ketP None)
                                 (nth i (lf_matrix f) [])) (seq 0 (lf_nbras f))).

(** lform.cc:77-81: propagate(ketP, sense). *)
Definition lf_propagate (f : lform) (ketP : tensor) (sense : Z) : lform :=
  if (0 <? sense)%Z then lf_propagate_right f ketP else lf_propagate_left f ketP.

Definition lf_goto (f : lform) (h : nat) : lform := mkLF (lf_weight f) (lf_bra f) h (lf_matrix f).

(** lform.cc:41-66: LinearForm(weight, bras, ket, start) with initialize_matrices() and
    make_matrix_array().  For a start outside 0..size-1 one of the two loops never ends, because
    propagate_*() does not move past the ends: Abort.  An empty list of bras has no size(): Abort. *)
Definition lform_new (weight : list K) (bras : list mps) (ket : mps) (start : Z) : result lform :=
  let n := length (nth 0 bras []) in
  if Nat.eqb (length bras) 0 then Abort
  else if (start <? 0)%Z || (Z.of_nat n <=? start)%Z then Abort
  else
    let s := Z.to_nat start in
    let f := mkLF weight bras 0 (repeat (repeat empty (n + 1)) (length bras)) in
    let f := fold_left (fun f k => lf_propagate_right f (site ket k)) (seq 0 s) f in
    let f := lf_goto f (n - 1) in
    Ok (fold_left (fun f k => lf_propagate_left f (site ket k)) (rev (seq (s + 1) (n - 1 - s))) f).

(** lform.cc:27-39: LinearForm(bra, ket, start): weight_ = ones(1). *)
Definition lform_new1 (bra ket : mps) (start : Z) : result lform := lform_new [1%K] [bra] ket start.

(** Tensor::ones(1,1,1,1) *)
Definition ones1111 : tensor := mk [1; 1; 1; 1] (fun _ => 1%K).

(** lform.cc:116-137: compose(L,P,R). *)
Definition lf_compose (L P R : tensor) : result tensor :=
  let L := if is_empty L then ones1111 else L in
  let R := if is_empty R then ones1111 else R in
  let a2 := dim L 2 in let b2 := dim L 3 in
  let a3 := dim R 0 in let b3 := dim R 1 in
  if Nat.eqb (dim R 2) 1 && Nat.eqb (dim R 3) 1 then
    let C := fold (reshape L [a2; b2]) 0 P 0 in
    Ok (fold C (rank C - 1) (reshape R [a3; b3]) 0)
  else Abort.

(** lform.cc:152-174: compose4(L,P1,P2,R). *)
Definition lf_compose4 (L P1 P2 R : tensor) : result tensor :=
  let L := if is_empty L then ones1111 else L in
  let R := if is_empty R then ones1111 else R in
  let a2 := dim L 2 in let b2 := dim L 3 in
  let a4 := dim R 0 in let b4 := dim R 1 in
  if Nat.eqb (dim R 2) 1 && Nat.eqb (dim R 3) 1 then
    let P := fold P1 (rank P1 - 1) P2 0 in
    let C := fold (reshape L [a2; b2]) 0 P 0 in
    Ok (fold C (rank C - 1) (reshape R [a4; b4]) 0)
  else Abort.

(** The loop  for i: maybe_add(&output, term(i)) *)
Definition add_terms (n : nat) (term : nat -> result tensor) : result tensor :=
  fold_left (fun out i => bind out (fun o => bind (term i) (fun t => Ok (maybe_add o t)))) (seq 0 n) (Ok empty).

(** weight_[i], an assertion of the tensor library if it does not exist *)
Definition lf_weight_at (f : lform) (i : nat) : result K :=
  match nth_error (lf_weight f) i with Some w => Ok w | None => Abort end.

(** lform.cc:139-150: single_site_vector(). *)
Definition single_site_vector (f : lform) : result tensor :=
  let h := lf_here f in
  add_terms (lf_nbras f) (fun i => bind (lf_weight_at f i) (fun w =>
    lf_compose (lf_left f i h) (tconj (tscale w (lf_bra_site f i h))) (lf_right f i h))).

(** lform.cc:176-200: two_site_vector(sense). *)
Definition two_site_vector (f : lform) (sense : Z) : result tensor :=
  let h := lf_here f in
  let '(i, j) := if (0 <? sense)%Z then (h, h + 1) else (h - 1, h) in
  if (if (0 <? sense)%Z then Nat.ltb (h + 1) (lf_size f) else Nat.ltb 0 h) then
    add_terms (lf_nbras f) (fun n => bind (lf_weight_at f n) (fun w =>
      lf_compose4 (lf_left f n i) (tconj (tscale w (lf_bra_site f n i))) (tconj (lf_bra_site f n j))
                  (lf_right f n j)))
  else Abort.

(** lform.cc:202-215: the number v of which norm2() returns sqrt(abs(v)).  scprod() has sense = +1
    by default (include/mps/mps.h). *)
Definition lf_norm2_v (f : lform) : result K :=
  fold_left (fun v i => fold_left (fun v j =>
      bind v (fun v => bind (lf_weight_at f i) (fun wi => bind (lf_weight_at f j) (fun wj =>
        bind (scprod (nth i (lf_bra f) []) (nth j (lf_bra f) []) 1) (fun s =>
          let x := (kconj wi * wj * s)%K in
          let v := (v + x)%K in
          Ok (if Nat.eqb i j then v else (v + kconj x)%K))))))
    (seq 0 (i + 1)) v) (seq 0 (lf_nbras f)) (Ok 0%K).

(** ** QuadraticForm *)

(** include/mps/qform.h:84-98: struct Pair *)
Record qpair := mkPair { p_left : nat; p_right : nat; p_op : tensor }.

(** qform.h:88-94: Pair(i,j,tensor): op = reshape(tensor(i,:,:,j), d1, d2). *)
Definition new_pair (i j : nat) (t : tensor) : qpair :=
  mkPair i j (mk [dim t 1; dim t 2] (fun x => get t [i; nth 0 x 0; nth 1 x 0; j])).

(** qform.cc:78-93: make_pairs(mpo), one list per site; pairs with norm2(op) == 0 are left out. *)
Definition site_pairs (t : tensor) : list qpair :=
  filter (fun p => negb (is_zero_tensor (p_op p)))
    (flat_map (fun i => map (fun j => new_pair i j t) (seq 0 (dim t 3))) (seq 0 (dim t 0))).
Definition make_pairs (O : mpo) : list (list qpair) := map site_pairs O.

(** qform.h:105-107: data members *)
Record qform := mkQF { qf_here : nat; qf_size : nat; qf_matrix : list (list tensor); qf_pairs : list (list qpair) }.

(** qform.h:109-126: left_matrix(site,n) = matrix_[site][n], right_matrix(site,n) = matrix_[site+1][n] *)
Definition qf_left (f : qform) (s n : nat) : tensor := nth n (nth s (qf_matrix f) []) empty.
Definition qf_right (f : qform) (s n : nat) : tensor := nth n (nth (s + 1) (qf_matrix f) []) empty.

(** qform.cc:45-60: make_matrix_database(mpo), after its assertion. *)
Definition make_matrix_database (O : mpo) : list (list tensor) :=
  let L := length O in
  map (fun i => if Nat.eqb i 0 || Nat.eqb i L then [ones1111]
                else repeat empty (dim (site O i) 0)) (seq 0 (L + 1)).

(** qform.cc:110-137: propagate_left(braP, ketP). *)
Definition qf_propagate_left (f : qform) (braP ketP : tensor) : qform :=
  if Nat.eqb (qf_here f) 0 then f
  else
    let h := qf_here f in
    let mr := nth (h + 1) (qf_matrix f) [] in
    let new := repeat empty (length (nth h (qf_matrix f) [])) in
    let new := fold_left (fun m p =>
        let M := nth (p_right p) mr empty in
        if is_empty M then m
        else replace_nth (p_left p)
               (maybe_add (nth (p_left p) m empty) (prop_matrix M (-1) braP ketP (Some (p_op p)))) m)
      (nth h (qf_pairs f) []) new in
    mkQF (h - 1) (qf_size f) (replace_nth h new (qf_matrix f)) (qf_pairs f).

(** qform.cc:139-165: propagate_right(braP, ketP). *)
Definition qf_propagate_right (f : qform) (braP ketP : tensor) : qform :=
  if Nat.eqb (qf_here f + 1) (qf_size f) then f
  else
    let h := qf_here f in
    let ml := nth h (qf_matrix f) [] in
    let new := repeat empty (length (nth (h + 1) (qf_matrix f) [])) in
    let new := fold_left (fun m p =>
        let M := nth (p_left p) ml empty in
        if is_empty M then m
        else replace_nth (p_right p)
               (maybe_add (nth (p_right p) m empty) (prop_matrix M 1 braP ketP (Some (p_op p)))) m)
      (nth h (qf_pairs f) []) new in
    mkQF (h + 1) (qf_size f) (replace_nth (h + 1) new (qf_matrix f)) (qf_pairs f).

(** qform.cc:104-108: propagate(braP, ketP, sense). *)
Definition qf_propagate (f : qform) (braP ketP : tensor) (sense : Z) : qform :=
  if (0 <? sense)%Z then qf_propagate_right f braP ketP else qf_propagate_left f braP ketP.

(** qform.cc:27-43: QuadraticForm(mpo, bra, ket, start).  As above, the loops do not end for a start
    outside the chain: Abort. *)
Definition qform_new (O : mpo) (bra ket : mps) (start : Z) : result qform :=
  let n := length O in
  if negb (Nat.eqb (dim (site O 0) 0) 1 && Nat.eqb (dim (site bra 0) 0) 1 && Nat.eqb (dim (site ket 0) 0) 1) then Abort
  else if (start <? 0)%Z || (Z.of_nat n <=? start)%Z then Abort
  else
    let s := Z.to_nat start in
    let f := mkQF (n - 1) n (make_matrix_database O) (make_pairs O) in
    let f := fold_left (fun f k => qf_propagate_left f (site bra k) (site ket k)) (rev (seq (s + 1) (n - 1 - s))) f in
    let f := mkQF 0 n (qf_matrix f) (qf_pairs f) in
    Ok (fold_left (fun f k => qf_propagate_right f (site bra k) (site ket k)) (seq 0 s) f).

(** qform.cc:167-183: compose(L,op,R). *)
Definition qf_compose (L op R : tensor) : result tensor :=
  let a2 := dim L 2 in let b2 := dim L 3 in let a3 := dim R 0 in let b3 := dim R 1 in
  if Nat.eqb (dim R 2) 1 && Nat.eqb (dim R 3) 1 then
    Ok (kron (kron (reshape R [a3; b3]) op) (reshape L [a2; b2]))
  else Abort.

(** qform.cc:185-201: compose(L,op1,op2,R). *)
Definition qf_compose4 (L op1 op2 R : tensor) : result tensor :=
  let a2 := dim L 2 in let b2 := dim L 3 in let a3 := dim R 0 in let b3 := dim R 1 in
  if Nat.eqb (dim R 2) 1 && Nat.eqb (dim R 3) 1 then
    Ok (kron (kron (kron (reshape R [a3; b3]) op2) op1) (reshape L [a2; b2]))
  else Abort.

(** The loop  for (it ...) { if (L, R not empty) maybe_add(&output, term(L, op, R)) } over the pairs. *)
Definition add_pairs (ps : list qpair) (left right : qpair -> tensor) (term : tensor -> tensor -> tensor -> result tensor)
  : result tensor :=
  fold_left (fun out p => bind out (fun o =>
    let L := left p in let R := right p in
    if is_empty L || is_empty R then Ok o
    else bind (term L (p_op p) R) (fun t => Ok (maybe_add o t)))) ps (Ok empty).

(** The same for two sites: pairs with matching inner index. *)
Definition add_pairs2 (ps1 ps2 : list qpair) (left right : qpair -> tensor)
  (term : tensor -> tensor -> tensor -> tensor -> result tensor) : result tensor :=
  fold_left (fun out p1 => fold_left (fun out p2 => bind out (fun o =>
    if Nat.eqb (p_right p1) (p_left p2) then
      let L := left p1 in let R := right p2 in
      if is_empty L || is_empty R then Ok o
      else bind (term L (p_op p1) (p_op p2) R) (fun t => Ok (maybe_add o t))
    else Ok o)) ps2 out) ps1 (Ok empty).

Definition qf_pairs_at (f : qform) (s : nat) : list qpair := nth s (qf_pairs f) [].

(** qform.cc:203-219: single_site_matrix(). *)
Definition single_site_matrix (f : qform) : result tensor :=
  let h := qf_here f in
  add_pairs (qf_pairs_at f h) (fun p => qf_left f h (p_left p)) (fun p => qf_right f h (p_right p)) qf_compose.

(** Sites of the two-site routines, with their assertions (qform.cc:228-237, 318-327, 372-381). *)
Definition two_sites (f : qform) (sense : Z) : result (nat * nat) :=
  let h := qf_here f in
  if (0 <? sense)%Z then (if Nat.ltb (h + 1) (qf_size f) then Ok (h, h + 1) else Abort)
  else (if Nat.ltb 0 h then Ok (h - 1, h) else Abort).

(** qform.cc:222-254: two_site_matrix(sense). *)
Definition two_site_matrix (f : qform) (sense : Z) : result tensor :=
  bind (two_sites f sense) (fun '(i, j) =>
    add_pairs2 (qf_pairs_at f i) (qf_pairs_at f j) (fun p => qf_left f i (p_left p)) (fun p => qf_right f j (p_right p))
      qf_compose4).

(** qform.cc:256-284: apply_one_site_matrix(P). *)
Definition apply_one_site_matrix (f : qform) (P : tensor) : result tensor :=
  let h := qf_here f in
  add_pairs (qf_pairs_at f h) (fun p => qf_left f h (p_left p)) (fun p => qf_right f h (p_right p))
    (fun L op R =>
       Ok (fold (fold (reshape L [dim L 2; dim L 3]) 1 (foldin op 1 P 1) 0) 2 (reshape R [dim R 0; dim R 1]) 1)).

(** qform.cc:314-358: apply_two_site_matrix(P12, sense). *)
Definition apply_two_site_matrix (f : qform) (P12 : tensor) (sense : Z) : result tensor :=
  bind (two_sites f sense) (fun '(i, j) =>
    add_pairs2 (qf_pairs_at f i) (qf_pairs_at f j) (fun p => qf_left f i (p_left p)) (fun p => qf_right f j (p_right p))
      (fun L op1 op2 R =>
         Ok (fold (fold (reshape L [dim L 2; dim L 3]) 1 (foldin op1 1 (foldin op2 1 P12 2) 1) 0) 3
                  (reshape R [dim R 0; dim R 1]) 1))).

(** tensor library: take_diag(matrix) is the vector of the diagonal elements. *)
Definition take_diag (M : tensor) : tensor := mk [Nat.min (dim M 0) (dim M 1)] (fun x => get M [nth 0 x 0; nth 0 x 0]).
(** tensor library, on vectors: kron2(a,b)([i,j]) = a(i) b(j), the index of a being the fast one, and
    kron2_sum(a,b)([i,j]) = a(i) + b(j). *)
Definition kron2_vec (a b : tensor) : tensor :=
  mk [dim a 0 * dim b 0] (fun x => let n := nth 0 x 0 in (get a [n mod dim a 0] * get b [n / dim a 0])%K).
Definition kron2_sum_vec (a b : tensor) : tensor :=
  mk [dim a 0 * dim b 0] (fun x => let n := nth 0 x 0 in (get a [n mod dim a 0] + get b [n / dim a 0])%K).

(** qform.cc:286-312: take_single_site_matrix_diag(). *)
Definition take_single_site_matrix_diag (f : qform) : result tensor :=
  let h := qf_here f in
  add_pairs (qf_pairs_at f h) (fun p => qf_left f h (p_left p)) (fun p => qf_right f h (p_right p))
    (fun L op R =>
       Ok (kron2_sum_vec (kron2_sum_vec (take_diag (reshape L [dim L 2; dim L 3])) (take_diag op))
                         (take_diag (reshape R [dim R 0; dim R 1])))).

(** qform.cc:360-419: take_two_site_matrix_diag(sense). *)
Definition take_two_site_matrix_diag (f : qform) (sense : Z) : result tensor :=
  bind (two_sites f sense) (fun '(i, j) =>
    add_pairs2 (qf_pairs_at f i) (qf_pairs_at f j) (fun p => qf_left f i (p_left p)) (fun p => qf_right f j (p_right p))
      (fun L op1 op2 R =>
         Ok (kron2_vec (kron2_vec (take_diag (reshape L [dim L 2; dim L 3])) (take_diag op1))
                       (kron2_vec (take_diag op2) (take_diag (reshape R [dim R 0; dim R 1])))))).

End Model.
