(** * Model of Lattice (src/quantum/lattice.cc, lattice_apply.cc, lattice_bipartition.cc)

    [word] is tensor::index, a signed 64-bit integer (the branch sizeof(word) == 8); all words that occur
    are below 2^35, so Z is exact. *)
From Coq Require Import Bool List Arith ZArith Lia.
From Verif Require Import Scalar Tensor.
Import ListNotations.

(** lattice.cc:25-38: static const int byte[256] *)
Definition byte : list nat :=
  [0; 1; 1; 2; 1; 2; 2; 3; 1; 2; 2; 3; 2; 3; 3; 4; 1; 2; 2; 3; 2; 3; 3; 4; 2; 3; 3; 4; 3; 4; 4; 5;
   1; 2; 2; 3; 2; 3; 3; 4; 2; 3; 3; 4; 3; 4; 4; 5; 2; 3; 3; 4; 3; 4; 4; 5; 3; 4; 4; 5; 4; 5; 5; 6;
   1; 2; 2; 3; 2; 3; 3; 4; 2; 3; 3; 4; 3; 4; 4; 5; 2; 3; 3; 4; 3; 4; 4; 5; 3; 4; 4; 5; 4; 5; 5; 6;
   2; 3; 3; 4; 3; 4; 4; 5; 3; 4; 4; 5; 4; 5; 5; 6; 3; 4; 4; 5; 4; 5; 5; 6; 4; 5; 5; 6; 5; 6; 6; 7;
   1; 2; 2; 3; 2; 3; 3; 4; 2; 3; 3; 4; 3; 4; 4; 5; 2; 3; 3; 4; 3; 4; 4; 5; 3; 4; 4; 5; 4; 5; 5; 6;
   2; 3; 3; 4; 3; 4; 4; 5; 3; 4; 4; 5; 4; 5; 5; 6; 3; 4; 4; 5; 4; 5; 5; 6; 4; 5; 5; 6; 5; 6; 6; 7;
   2; 3; 3; 4; 3; 4; 4; 5; 3; 4; 4; 5; 4; 5; 5; 6; 3; 4; 4; 5; 4; 5; 5; 6; 4; 5; 5; 6; 5; 6; 6; 7;
   3; 4; 4; 5; 4; 5; 5; 6; 4; 5; 5; 6; 5; 6; 6; 7; 4; 5; 5; 6; 5; 6; 6; 7; 5; 6; 6; 7; 6; 7; 7; 8]%nat.

(** byte[w] *)
Definition byte_at (w : Z) : nat := nth (Z.to_nat w) byte 0.

(** lattice.cc:40-55: count_bits(w), 64-bit branch. *)
Definition count_bits (w : Z) : nat :=
  byte_at (Z.land w 255) + byte_at (Z.land (Z.shiftr w 8) 255) + byte_at (Z.land (Z.shiftr w 16) 255) +
  byte_at (Z.land (Z.shiftr w 24) 255) + byte_at (Z.land (Z.shiftr w 32) 255).

(** The values 0 .. 2^sites-1 of the loop variable c. *)
Definition words (sites : nat) : list Z := map Z.of_nat (seq 0 (2 ^ sites)).

(** lattice.cc:57-91: states_with_n_particles(sites, filling).  The two passes (count, then fill) are
    written as one filter.  [sites] is not negative (1 << sites is undefined otherwise). *)
Definition states_with_n_particles (sites : nat) (filling : Z) : result (list Z) :=
  if Nat.ltb 34 sites then Abort
  else if (Z.of_nat sites <? filling)%Z then Abort
  else Ok (filter (fun c => Z.eqb (Z.of_nat (count_bits c)) filling) (words sites)).

(** include/mps/lattice.h:106-108: data members *)
Record lattice := mkLat { number_of_sites : nat; number_of_particles : Z; configurations : list Z }.

(** lattice.cc:93-98: Lattice(sites, N). *)
Definition lattice_new (sites : nat) (N : Z) : result lattice :=
  bind (states_with_n_particles sites N) (fun c => Ok (mkLat sites N c)).

(** lattice.cc:264-280: size(), particles(), dimension(). *)
Definition lat_size (L : lattice) : nat := number_of_sites L.
Definition particles (L : lattice) : Z := number_of_particles L.
Definition dimension (L : lattice) : nat := length (configurations L).

(** include/mps/lattice.h: particle_kind_t *)
Inductive kind := HARD_CORE_BOSONS | FERMIONS.

(** (word)1 << site *)
Definition mask (site : nat) : Z := Z.shiftl 1 (Z.of_nat site).

(** tensor library: sort_indices(v) is the list of positions that sorts v in increasing order. *)
Fixpoint insert_key (p : Z * nat) (l : list (Z * nat)) : list (Z * nat) :=
  match l with
  | [] => [p]
  | q :: r => if (fst p <=? fst q)%Z then p :: l else q :: insert_key p r
  end.
Definition sort_indices (v : list Z) : list nat :=
  map snd (fold_right insert_key [] (combine v (seq 0 (length v)))).

Section Model.
Context {SC : Scalar}.

(** lattice.cc:115-160: body of the loops of hopping_inner() for one configuration: ( *v, *it ). *)
Definition hop_one (knd : kind) (to_site from_site : nat) (w : Z) : K * Z :=
  let from_mask := mask from_site in
  let to_mask := mask to_site in
  let mask11 := Z.lor from_mask to_mask in
  let sign_mask := if Nat.ltb from_site to_site then Z.land (to_mask - 1) (Z.lnot (from_mask - 1))
                   else Z.land (from_mask - 1) (Z.lnot (to_mask - 1)) in
  let sign_value := if Nat.ltb from_site to_site then 0 else 1 in
  let aux := Z.land w mask11 in
  if Z.eqb aux from_mask then
    (match knd with
     | HARD_CORE_BOSONS => 1%K
     | FERMIONS => if Nat.eqb (count_bits (Z.land w sign_mask) mod 2) sign_value then (- (1))%K else 1%K
     end, Z.lxor w mask11)
  else if Z.eqb aux to_mask then (0%K, Z.lxor w mask11)
  else (0%K, w).

(** lattice.cc:100-161: hopping_inner(values, ndx, to, from, kind). *)
Definition hopping_inner (L : lattice) (to_site from_site : nat) (knd : kind) : list K * list Z :=
  let r := map (hop_one knd to_site from_site) (configurations L) in (map fst r, map snd r).

(** tensor library: sparse matrix, as the list of its (row, column, value); repeated entries add. *)
Record sparse := mkSp { sp_rows : nat; sp_cols : nat; sp_entries : list (nat * nat * K) }.
Definition sp_empty : sparse := mkSp 0 0 [].
Definition sp_make (rows cols : list nat) (values : list K) (m n : nat) : sparse :=
  mkSp m n (combine (combine rows cols) values).
Definition sp_add (A B : sparse) : sparse := mkSp (sp_rows A) (sp_cols A) (sp_entries A ++ sp_entries B).
Definition sp_scale (c : K) (A : sparse) : sparse :=
  mkSp (sp_rows A) (sp_cols A) (map (fun e => (fst e, (c * snd e)%K)) (sp_entries A)).

(** lattice.cc:195-213: interaction_inner(site1, site2). *)
Definition interaction_inner (L : lattice) (site1 site2 : nat) : list K :=
  let target := Z.lor (mask site1) (mask site2) in
  map (fun w => if Z.eqb (Z.land w target) target then 1%K else 0%K) (configurations L).

(** lattice.cc:186-193: interaction_operator(site1, site2). *)
Definition interaction_operator (L : lattice) (site1 site2 : nat) : sparse :=
  let n := seq 0 (dimension L) in
  sp_make n n (interaction_inner L site1 site2) (dimension L) (dimension L).

(** lattice.cc:180-184: number_operator(site). *)
Definition number_operator (L : lattice) (site : nat) : sparse := interaction_operator L site site.

(** lattice.cc:163-178: hopping_operator(to, from, kind). *)
Definition hopping_operator (L : lattice) (to_site from_site : nat) (knd : kind) : sparse :=
  if Nat.eqb to_site from_site then number_operator L from_site
  else
    let '(values, rows) := hopping_inner L to_site from_site knd in
    let rows := sort_indices rows in
    sp_make rows (seq 0 (length rows)) values (length rows) (length rows).

(** lattice.cc:215-222: maybe_add(). *)
Definition sp_maybe_add (H Op : sparse) : sparse := if Nat.eqb (sp_rows H) 0 then Op else sp_add H Op.

(** lattice.cc:224-262: Hamiltonian(J, U, mu, kind), real and complex version. *)
Definition lat_Hamiltonian (L : lattice) (J U : tensor) (mu : K) (knd : kind) : sparse :=
  fold_left (fun H i => fold_left (fun H j =>
    let Jij := (get J [i; j] - (if Nat.eqb i j then 1 else 0) * mu)%K in
    let H := if keqb Jij 0%K then H else sp_maybe_add H (sp_scale Jij (hopping_operator L i j knd)) in
    let Uij := get U [i; j] in
    if keqb Uij 0%K then H else sp_maybe_add H (sp_scale Uij (interaction_operator L i j)))
  (seq 0 (dim J 1)) H) (seq 0 (dim J 0)) sp_empty.

(** output += c * values * psi(range(perm)), elementwise *)
Definition add_scaled (output : list K) (c : K) (values psi : list K) (perm : list nat) : list K :=
  map (fun k => (nth k output 0 + c * nth k values 0 * nth (nth k perm 0%nat) psi 0)%K) (seq 0 (length output)).

(** lattice_apply.cc:26-49: apply_lattice(psi, L, J, U, kind), the operator that Lattice::eigs
    diagonalises.  (Lattice::apply is declared but defined nowhere.) *)
Definition apply_lattice (psi : list K) (L : lattice) (J U : tensor) (knd : kind) : list K :=
  fold_left (fun out i => fold_left (fun out j =>
    let out := if keqb (get J [i; j]) 0%K then out
               else let '(values, ndx) := hopping_inner L i j knd in
                    add_scaled out (get J [i; j]) values psi (sort_indices ndx) in
    if Nat.leb i j && negb (keqb (get U [i; j]) 0%K) then
      add_scaled out (get U [i; j] + get U [j; i])%K (interaction_inner L i j) psi (seq 0 (length psi))
    else out)
  (seq 0 (dim J 0)) out) (seq 0 (dim J 0)) (repeat 0%K (length psi)).
End Model.

(** lattice_bipartition.cc:25-55: states_in_particle_range(sites, nmin, nmax). *)
Definition states_in_particle_range (sites : nat) (nmin nmax : Z) : result (list Z) :=
  if Nat.ltb 34 sites then Abort
  else Ok (filter (fun c => let b := Z.of_nat (count_bits c) in (nmin <=? b)%Z && (b <=? nmax)%Z) (words sites)).

(** lattice_bipartition.cc:57-78: the loop of find_configuration(), with a bound on the number of
    iterations; None: the loop has not ended after that many. *)
Fixpoint find_loop (fuel : nat) (w : Z) (c : list Z) (i j : nat) : option nat :=
  match fuel with
  | O => None
  | S fuel =>
    if Nat.eqb i j then Some i
    else let k := Nat.div (i + j) 2 in
         let neww := nth k c 0%Z in
         if (w <? neww)%Z then find_loop fuel w c i k
         else if Z.eqb neww w then Some k
         else find_loop fuel w c k j
  end.
Definition find_configuration (fuel : nat) (w : Z) (c : list Z) : option nat :=
  let j := (length c - 1)%nat in
  if Z.eqb w (nth 0 c 0%Z) then Some 0%nat
  else if Z.eqb w (nth j c 0%Z) then Some j
  else find_loop fuel w c 0 j.

(** Conversion of a word to int (32 bits, two's complement). *)
Definition to_int (z : Z) : Z := ((z + 2 ^ 31) mod 2 ^ 32 - 2 ^ 31)%Z.

Definition list_result {A} (l : list (option A)) : result (list A) :=
  fold_right (fun x r => bind r (fun r => match x with Some x => Ok (x :: r) | None => Abort end)) (Ok []) l.

(** lattice_bipartition.cc:80-123: bipartition(sites_left, left, right, indices).  [fuel] bounds the
    loops of find_configuration(); a search that does not end in [fuel] iterations is Abort.  Each search
    either ends within size-of-the-list iterations or never (C38_search_ends). *)
Definition bipartition (fuel : nat) (L : lattice) (sites_left : Z) : result (list Z * list Z * list nat) :=
  let sites_right := (Z.of_nat (lat_size L) - sites_left)%Z in
  if (sites_left <=? 0)%Z || (sites_right <=? 0)%Z then Abort
  else
    let left_nmin := Z.max 0 (particles L - sites_right) in
    let right_nmin := Z.max 0 (particles L - sites_left) in
    let left_nmax := Z.min sites_left (particles L) in
    let right_nmax := Z.min sites_right (particles L) in
    bind (states_in_particle_range (Z.to_nat sites_left) left_nmin left_nmax) (fun left_states =>
    bind (states_in_particle_range (Z.to_nat sites_right) right_nmin right_nmax) (fun right_states =>
    let right_mask := to_int (Z.shiftl 1 sites_right - 1) in
    bind (list_result (map (fun w =>
            let wl := Z.shiftr w sites_right in
            let wr := Z.land w right_mask in
            match find_configuration fuel wl left_states, find_configuration fuel wr right_states with
            | Some il, Some ir => Some (ir + il * length right_states)%nat
            | _, _ => None
            end) (configurations L)))
      (fun ndx => Ok (left_states, right_states, ndx)))).
