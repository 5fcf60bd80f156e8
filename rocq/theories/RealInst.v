(** * The scalars of the two C++ instantiations over Coq's real numbers

    [RScalar] stands for [double] and [CScalar] for [std::complex<double>] (exact arithmetic). *)
From Coq Require Import Reals Lra List Bool Ring.
From Verif Require Import Scalar.
Local Open Scope R_scope.

Definition Reqb (x y : R) : bool := if Req_EM_T x y then true else false.

Lemma Reqb_spec x y : reflect (x = y) (Reqb x y).
Proof. unfold Reqb. destruct (Req_EM_T x y); constructor; assumption. Qed.

Lemma R_ring : ring_theory 0 1 Rplus Rmult Rminus Ropp eq.
Proof. constructor; intros; ring. Qed.

Definition RScalar : Scalar := {|
  K := R; k0 := 0; k1 := 1; kadd := Rplus; kmul := Rmult; ksub := Rminus; kopp := Ropp;
  kconj := fun x => x; keqb := Reqb; k_ring := R_ring;
  kconj_add := fun x y => eq_refl; kconj_mul := fun x y => eq_refl; kconj_inv := fun x => eq_refl;
  keqb_spec := Reqb_spec |}.

Record Cx := mkC { Cre : R; Cim : R }.

Definition Cadd a b := mkC (Cre a + Cre b) (Cim a + Cim b).
Definition Csub a b := mkC (Cre a - Cre b) (Cim a - Cim b).
Definition Copp a := mkC (- Cre a) (- Cim a).
Definition Cmul a b := mkC (Cre a * Cre b - Cim a * Cim b) (Cre a * Cim b + Cim a * Cre b).
Definition Cconj a := mkC (Cre a) (- Cim a).
Definition Ceqb a b := Reqb (Cre a) (Cre b) && Reqb (Cim a) (Cim b).

Lemma C_ext a b : Cre a = Cre b -> Cim a = Cim b -> a = b.
Proof. destruct a, b; cbn; congruence. Qed.

Lemma C_ring : ring_theory (mkC 0 0) (mkC 1 0) Cadd Cmul Csub Copp eq.
Proof. constructor; intros; apply C_ext; cbn; ring. Qed.

Lemma Ceqb_spec x y : reflect (x = y) (Ceqb x y).
Proof.
  unfold Ceqb. destruct (Reqb_spec (Cre x) (Cre y)), (Reqb_spec (Cim x) (Cim y)); cbn; constructor.
  - apply C_ext; assumption.
  - congruence.
  - congruence.
  - congruence.
Qed.

Definition CScalar : Scalar.
Proof.
  refine {| K := Cx; k0 := mkC 0 0; k1 := mkC 1 0; kadd := Cadd; kmul := Cmul; ksub := Csub;
    kopp := Copp; kconj := Cconj; keqb := Ceqb; k_ring := C_ring; keqb_spec := Ceqb_spec |}.
  - intros; apply C_ext; cbn; ring.
  - intros; apply C_ext; cbn; ring.
  - intros; apply C_ext; cbn; ring.
Defined.

(** Squared modulus *)
Definition Cmod2 (z : Cx) : R := Cre z * Cre z + Cim z * Cim z.

Lemma sum_R_nonneg n (f : nat -> R) : (forall i, 0 <= f i) -> 0 <= @sum RScalar n f.
Proof.
  intros H. induction n as [|n IH]; cbn; [lra|]. specialize (H n). lra.
Qed.

Lemma sumcfg_R_nonneg ds (f : list nat -> R) : (forall i, 0 <= f i) -> 0 <= @sumcfg RScalar ds f.
Proof.
  revert f. induction ds as [|d ds IH]; intros f H; cbn; [apply H|].
  apply sum_R_nonneg. intros i. apply IH. intros is. apply H.
Qed.

Lemma sumcfg_C_real ds (f : list nat -> Cx) : (forall i, Cim (f i) = 0) -> (forall i, 0 <= Cre (f i)) ->
  Cim (@sumcfg CScalar ds f) = 0 /\ 0 <= Cre (@sumcfg CScalar ds f).
Proof.
  revert f. induction ds as [|d ds IH]; intros f H1 H2; cbn; [auto|].
  induction d as [|d IHd]; cbn; [lra|].
  destruct (IH (fun is => f (d :: is)%list)) as (H3 & H4); auto.
  cbn in H3, H4. destruct IHd as (H5 & H6). rewrite H3, H5. lra.
Qed.
