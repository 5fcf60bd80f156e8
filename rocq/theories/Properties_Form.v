(** * C44, C45: linear and quadratic forms *)
From Coq Require Import Bool List Arith ZArith Lia.
From Verif Require Import Scalar Instances Tensor TensorFacts Spec MpsModel MpoSpec Witness MpsFacts FormModel FormSpec
  LFormFacts LFormValue QFormFacts QFormInv QFormValue QFormMain.
Import ListNotations.
Local Open Scope K_scope.

Section Properties.
Context {SC : Scalar}.

(** C44. The constructor succeeds exactly for a start inside the chain (elsewhere the C++ loops for
    ever, which the model calls Abort). *)
Theorem C44_constructor ws bras ket ds start : good_bras ws bras ds ->
  ((0 <= start < Z.of_nat (length ds))%Z -> exists f, lform_new ws bras ket start = Ok f) /\
  (~ (0 <= start < Z.of_nat (length ds))%Z -> lform_new ws bras ket start = Abort).
Proof.
  intros (Hn & _ & Hb). destruct bras as [|b bras]; [congruence|]. destruct (Hb b (or_introl eq_refl)) as (_ & Hd).
  unfold lform_new. cbn [length Nat.eqb nth]. replace (length b) with (length ds) by (rewrite <- Hd; apply length_pdims). split; intros H.
  - destruct (Z.ltb_spec start 0); [lia|]. destruct (Z.leb_spec (Z.of_nat (length ds)) start); [lia|]. cbn [orb]. eexists. reflexivity.
  - destruct (Z.ltb_spec start 0); [reflexivity|]. destruct (Z.leb_spec (Z.of_nat (length ds)) start); [reflexivity|lia].
Qed.

(** The current site stays in the chain. *)
Theorem C44_site ws bras ds f p q : good_bras ws bras ds -> lf_history ws bras ds f p q ->
  lf_here f = length p /\ lf_size f = length ds /\ (length p + 1 + length q = length ds)%nat.
Proof.
  intros Hg H. destruct (history_linv ws bras ds Hg f p q H) as ((H0 & Hh & Hl & _) & _).
  split; [exact Hh|]. split; [exact (size_ok ws bras ds Hg f H0)|lia].
Qed.

(** After any history, single_site_vector() contracted with any tensor T that fits at here() is the
    scalar product of sum_i w_i bra_i with the ket that has T there. *)
Theorem C44_single_site ws bras ds f p q T : good_bras ws bras ds -> lf_history ws bras ds f p q ->
  linked 1 (p ++ T :: q) 1 -> pdims (p ++ T :: q) = ds ->
  exists v, single_site_vector f = Ok v /\ wf v /\ dims v = dims T /\
    sumcfg (dims T) (fun x => get v x * get T x) = overlap ws bras (p ++ T :: q).
Proof. intros Hg H. apply single_site_value; [exact Hg|apply history_linv; assumption]. Qed.

Theorem C44_two_site_right ws bras ds f p C q A B : good_bras ws bras ds -> lf_history ws bras ds f p (C :: q) ->
  linked 1 (p ++ A :: B :: q) 1 -> pdims (p ++ A :: B :: q) = ds ->
  exists v, two_site_vector f 1 = Ok v /\ wf v /\ dims v = [dim A 0; dim A 1; dim B 1; dim B 2] /\
    sum (dim A 0) (fun a => sum (dim A 1) (fun i => sum (dim B 1) (fun j => sum (dim B 2) (fun b =>
      get v [a; i; j; b] * sum (dim A 2) (fun m => get A [a; i; m] * get B [m; j; b]))))) =
    overlap ws bras (p ++ A :: B :: q).
Proof. intros Hg H. apply (two_site_right ws bras ds Hg f p C q A B). apply history_linv; assumption. Qed.

Theorem C44_two_site_left ws bras ds f p C q A B : good_bras ws bras ds -> lf_history ws bras ds f (p ++ [C]) q ->
  linked 1 (p ++ A :: B :: q) 1 -> pdims (p ++ A :: B :: q) = ds ->
  exists v, two_site_vector f (-1) = Ok v /\ wf v /\ dims v = [dim A 0; dim A 1; dim B 1; dim B 2] /\
    sum (dim A 0) (fun a => sum (dim A 1) (fun i => sum (dim B 1) (fun j => sum (dim B 2) (fun b =>
      get v [a; i; j; b] * sum (dim A 2) (fun m => get A [a; i; m] * get B [m; j; b]))))) =
    overlap ws bras (p ++ A :: B :: q).
Proof. intros Hg H. apply (two_site_left ws bras ds Hg f p C q A B). apply history_linv; assumption. Qed.

(** two_site_vector() aborts at the ends of the chain. *)
Theorem C44_two_site_end ws bras ds f p q : good_bras ws bras ds -> lf_history ws bras ds f p q ->
  (q = [] -> two_site_vector f 1 = Abort) /\ (p = [] -> two_site_vector f (-1) = Abort).
Proof.
  intros Hg H. destruct (C44_site ws bras ds f p q Hg H) as (Hh & Hs & Hl). unfold two_site_vector. split; intros ->; cbn [length] in *.
  - cbn [Z.ltb Z.compare]. destruct (Nat.ltb_spec (lf_here f + 1) (lf_size f)); [lia|reflexivity].
  - cbn [Z.ltb Z.compare]. rewrite Hh. reflexivity.
Qed.

(** norm2() is the square root of |v|, and v is the squared norm of sum_i w_i bra_i. *)
Theorem C44_norm2 ws bras ds f p q : good_bras ws bras ds -> lf_history ws bras ds f p q ->
  lf_norm2_v f = Ok (sum (length bras) (fun i => sum (length bras) (fun j =>
    kconj (nth i ws 0) * nth j ws 0 * inner ds (amp (nth i bras [])) (amp (nth j bras []))))).
Proof.
  intros Hg H. destruct (history_linv ws bras ds Hg f p q H) as (((Hw & Hb & _) & _) & _). exact (lf_norm_value ws bras ds Hg f Hw Hb).
Qed.

(** C45. *)
Theorem C45_constructor O bra ket start : open_mpo O -> open_mps bra -> open_mps ket ->
  ((0 <= start < Z.of_nat (length O))%Z -> exists f, qform_new O bra ket start = Ok f) /\
  (~ (0 <= start < Z.of_nat (length O))%Z -> qform_new O bra ket start = Abort).
Proof.
  intros (HO & HOl) (Hb & Hbl) (Hk & Hkl). unfold qform_new.
  assert (E1 : dim (site O 0) 0 = 1%nat) by (destruct O as [|t r]; [congruence|]; destruct HOl as (d & e & c & Ht & _); unfold site, dim; cbn [nth]; rewrite Ht; reflexivity).
  assert (E2 : dim (site bra 0) 0 = 1%nat) by (destruct bra as [|t r]; [congruence|]; destruct Hbl as (d & c & Ht & _); unfold site, dim; cbn [nth]; rewrite Ht; reflexivity).
  assert (E3 : dim (site ket 0) 0 = 1%nat) by (destruct ket as [|t r]; [congruence|]; destruct Hkl as (d & c & Ht & _); unfold site, dim; cbn [nth]; rewrite Ht; reflexivity).
  rewrite E1, E2, E3. cbn [Nat.eqb andb negb]. split; intros H.
  - destruct (Z.ltb_spec start 0); [lia|]. destruct (Z.leb_spec (Z.of_nat (length O)) start); [lia|]. cbn [orb]. eexists. reflexivity.
  - destruct (Z.ltb_spec start 0); [reflexivity|]. destruct (Z.leb_spec (Z.of_nat (length O)) start); [reflexivity|lia].
Qed.

(** Periodic operators and states are refused. *)
Theorem C45_rejects_periodic O bra ket start :
  dim (site O 0) 0 <> 1%nat \/ dim (site bra 0) 0 <> 1%nat \/ dim (site ket 0) 0 <> 1%nat -> qform_new O bra ket start = Abort.
Proof.
  intros H. unfold qform_new. destruct (Nat.eqb_spec (dim (site O 0) 0) 1), (Nat.eqb_spec (dim (site bra 0) 0) 1), (Nat.eqb_spec (dim (site ket 0) 0) 1); cbn [andb negb]; try reflexivity. tauto.
Qed.

Theorem C45_site O f p q p' q' : open_mpo O -> odims O = idims O -> qf_history O f p q p' q' ->
  qf_here f = length p /\ length p' = length p /\ length q' = length q /\ (length p + 1 + length q = length O)%nat.
Proof. intros HO Hsq H. destruct (history_qinv O HO Hsq f p q p' q' H) as ((_ & Hh & Hp & Hq & Hl & _) & _). repeat split; auto. lia. Qed.

(** single_site_matrix(): the form <bra|O|ket> in the tensors S of the bra and T of the ket.  The
    matrix is empty only if the form vanishes. *)
Theorem C45_single_site O f p q p' q' S T : open_mpo O -> odims O = idims O -> qf_history O f p q p' q' ->
  linked 1 (p ++ S :: q) 1 -> linked 1 (p' ++ T :: q') 1 -> pdims (p ++ S :: q) = odims O -> pdims (p' ++ T :: q') = idims O ->
  exists M, single_site_matrix f = Ok M /\ (is_empty M = true \/ dims M = [nprod (dims S); nprod (dims T)]) /\
    msandwich S M T = sandwich (p ++ S :: q) O (p' ++ T :: q').
Proof. intros HO Hsq H. apply single_matrix_value; try assumption. apply history_qinv; assumption. Qed.

(** apply_one_site_matrix(T) is that matrix applied to T. *)
Theorem C45_apply_one_site O f p q p' q' S T : open_mpo O -> odims O = idims O -> qf_history O f p q p' q' ->
  linked 1 (p ++ S :: q) 1 -> linked 1 (p' ++ T :: q') 1 -> pdims (p ++ S :: q) = odims O -> pdims (p' ++ T :: q') = idims O ->
  exists v, apply_one_site_matrix f T = Ok v /\ (is_empty v = true \/ dims v = dims S) /\
    sumcfg (dims S) (fun u => kconj (get S u) * elem v u) = sandwich (p ++ S :: q) O (p' ++ T :: q').
Proof. intros HO Hsq H. apply apply_one_value; try assumption. apply history_qinv; assumption. Qed.

(** Two sites; the tensors of the two sites are contracted as fold(A,2,B,0). *)
Theorem C45_two_site_right O f p C q p' C' q' S1 S2 T1 T2 : open_mpo O -> odims O = idims O -> qf_history O f p (C :: q) p' (C' :: q') ->
  linked 1 (p ++ S1 :: S2 :: q) 1 -> linked 1 (p' ++ T1 :: T2 :: q') 1 ->
  pdims (p ++ S1 :: S2 :: q) = odims O -> pdims (p' ++ T1 :: T2 :: q') = idims O ->
  let S := fold S1 2 S2 0 in let T := fold T1 2 T2 0 in
  (exists M, two_site_matrix f 1 = Ok M /\ (is_empty M = true \/ dims M = [nprod (dims S); nprod (dims T)]) /\
    msandwich S M T = sandwich (p ++ S1 :: S2 :: q) O (p' ++ T1 :: T2 :: q')) /\
  (exists v, apply_two_site_matrix f T 1 = Ok v /\ (is_empty v = true \/ dims v = dims S) /\
    sumcfg (dims S) (fun u => kconj (get S u) * elem v u) = sandwich (p ++ S1 :: S2 :: q) O (p' ++ T1 :: T2 :: q')).
Proof.
  intros HO Hsq H HS HT HdS HdT S T. destruct (history_qinv O HO Hsq _ _ _ _ _ H) as (Hi & _).
  destruct (two_right_hyps O f p C q p' C' q' Hi) as (K1 & K2 & K3 & K4 & K5 & K6 & K7).
  split; [eapply two_matrix_value|eapply apply_two_value]; eassumption.
Qed.

Theorem C45_two_site_left O f p C q p' C' q' S1 S2 T1 T2 : open_mpo O -> odims O = idims O -> qf_history O f (p ++ [C]) q (p' ++ [C']) q' ->
  linked 1 (p ++ S1 :: S2 :: q) 1 -> linked 1 (p' ++ T1 :: T2 :: q') 1 ->
  pdims (p ++ S1 :: S2 :: q) = odims O -> pdims (p' ++ T1 :: T2 :: q') = idims O ->
  let S := fold S1 2 S2 0 in let T := fold T1 2 T2 0 in
  (exists M, two_site_matrix f (-1) = Ok M /\ (is_empty M = true \/ dims M = [nprod (dims S); nprod (dims T)]) /\
    msandwich S M T = sandwich (p ++ S1 :: S2 :: q) O (p' ++ T1 :: T2 :: q')) /\
  (exists v, apply_two_site_matrix f T (-1) = Ok v /\ (is_empty v = true \/ dims v = dims S) /\
    sumcfg (dims S) (fun u => kconj (get S u) * elem v u) = sandwich (p ++ S1 :: S2 :: q) O (p' ++ T1 :: T2 :: q')).
Proof.
  intros HO Hsq H HS HT HdS HdT S T. destruct (history_qinv O HO Hsq _ _ _ _ _ H) as (Hi & _).
  destruct (two_left_hyps O f p C q p' C' q' Hi) as (K1 & K2 & K3 & K4 & K5 & K6 & K7).
  split; [eapply two_matrix_value|eapply apply_two_value]; eassumption.
Qed.

(** take_two_site_matrix_diag() is the diagonal of two_site_matrix(), when bra and ket have the same
    bonds around the two sites. *)
Theorem C45_two_site_diag O f p C q p' C' q' S1 S2 T1 T2 : open_mpo O -> odims O = idims O -> qf_history O f p (C :: q) p' (C' :: q') ->
  linked 1 (p ++ S1 :: S2 :: q) 1 -> linked 1 (p' ++ T1 :: T2 :: q') 1 ->
  pdims (p ++ S1 :: S2 :: q) = odims O -> pdims (p' ++ T1 :: T2 :: q') = idims O -> dim S1 0 = dim T1 0 -> dim S2 2 = dim T2 2 ->
  exists M v, two_site_matrix f 1 = Ok M /\ take_two_site_matrix_diag f 1 = Ok v /\
    (is_empty v = true \/ dims v = [nprod (dims (fold S1 2 S2 0))]) /\
    forall r, (r < nprod (dims (fold S1 2 S2 0)))%nat -> elem v [r] = elem M [r; r].
Proof.
  intros HO Hsq H HS HT HdS HdT Hl Hr. destruct (history_qinv O HO Hsq _ _ _ _ _ H) as (Hi & _).
  destruct (two_right_hyps O f p C q p' C' q' Hi) as (K1 & K2 & K3 & K4 & K5 & K6 & K7).
  eapply two_diag_value; eassumption.
Qed.

Theorem C45_two_site_diag_left O f p C q p' C' q' S1 S2 T1 T2 : open_mpo O -> odims O = idims O -> qf_history O f (p ++ [C]) q (p' ++ [C']) q' ->
  linked 1 (p ++ S1 :: S2 :: q) 1 -> linked 1 (p' ++ T1 :: T2 :: q') 1 ->
  pdims (p ++ S1 :: S2 :: q) = odims O -> pdims (p' ++ T1 :: T2 :: q') = idims O -> dim S1 0 = dim T1 0 -> dim S2 2 = dim T2 2 ->
  exists M v, two_site_matrix f (-1) = Ok M /\ take_two_site_matrix_diag f (-1) = Ok v /\
    (is_empty v = true \/ dims v = [nprod (dims (fold S1 2 S2 0))]) /\
    forall r, (r < nprod (dims (fold S1 2 S2 0)))%nat -> elem v [r] = elem M [r; r].
Proof.
  intros HO Hsq H HS HT HdS HdT Hl Hr. destruct (history_qinv O HO Hsq _ _ _ _ _ H) as (Hi & _).
  destruct (two_left_hyps O f p C q p' C' q' Hi) as (K1 & K2 & K3 & K4 & K5 & K6 & K7).
  eapply two_diag_value; eassumption.
Qed.

End Properties.
Local Close Scope K_scope.

(** ** Cases *)
Definition get_ok_with {A} (d : A) (r : result A) : A := match r with Ok x => x | Abort => d end.
Definition get_ok (r : result (@tensor GScalar)) : @tensor GScalar := get_ok_with empty r.
Definition gopen2 : @mps GScalar := [gt [1;2;3] 2; gt [3;3;2] 0; gt [2;2;1] 1].
Definition gket : @mps GScalar := [gt [1;2;2] 4; gt [2;3;2] 3; gt [2;2;1] 5].
Definition gws : list (@K GScalar) := [mkG 1 2; mkG (-3) 1].
Lemma gopen_open : open_mps gopen. Proof. split; [discriminate|solve_linked]. Qed.
Lemma gopen2_open : open_mps gopen2. Proof. split; [discriminate|solve_linked]. Qed.
Lemma gket_open : open_mps gket. Proof. split; [discriminate|solve_linked]. Qed.

Lemma gbras_good : good_bras gws [gopen; gopen2] [2;3;2].
Proof.
  split; [discriminate|]. split; [reflexivity|]. intros b [<-|[<-|[]]]; (split; [|reflexivity]); [exact gopen_open|exact gopen2_open].
Qed.
(** Constructor at site 1, then a move to the right with a new tensor that changes the bond to 3, then
    back to the left. *)
Definition gnew : lform := get_ok_with (mkLF [] [] 0 []) (lform_new gws [gopen; gopen2] gket 1).
Definition gT : @tensor GScalar := gt [2;3;3] 8.
Definition gT2 : @tensor GScalar := gt [3;2;1] 7.
Definition gmoved : lform := lf_propagate_right gnew gT.
Definition gback : lform := lf_propagate_left gmoved gT2.

Lemma gnew_ok : lform_new gws [gopen; gopen2] gket (Z.of_nat 1) = Ok gnew.
Proof. vm_compute. reflexivity. Qed.
Lemma gmoved_hist : lf_history gws [gopen; gopen2] [2;3;2] gmoved [site gket 0; gT] [].
Proof.
  apply (lfh_right gws [gopen; gopen2] [2;3;2] gnew [site gket 0] (site gket 2) [] gT 3).
  - exact (lfh_new gws [gopen; gopen2] [2;3;2] gket 1 gnew gket_open eq_refl gnew_ok).
  - solve_linked.
  - reflexivity.
Qed.
Lemma gback_hist : lf_history gws [gopen; gopen2] [2;3;2] gback [site gket 0] [gT2].
Proof.
  apply (lfh_left gws [gopen; gopen2] [2;3;2] gmoved [site gket 0] gT [] gT2 3); [exact gmoved_hist|lia|solve_linked|reflexivity].
Qed.

Example C44_ex : exists v, single_site_vector gback = Ok v /\ dims v = [2;3;3] /\
  overlap gws [gopen; gopen2] [site gket 0; gT; gT2] <> 0%K /\
  sumcfg [2;3;3] (fun x => get v x * get gT x)%K = overlap gws [gopen; gopen2] [site gket 0; gT; gT2].
Proof. exists (get_ok (single_site_vector gback)). split; [vm_compute; reflexivity|]. split; [vm_compute; reflexivity|]. split; vm_compute; [discriminate|reflexivity]. Qed.

(** The formula of the header, sum_i w_i <bra_i|ket> without conjugation of the weights, does not hold. *)
Example C44_header_formula : exists v, single_site_vector gback = Ok v /\
  sumcfg [2;3;3] (fun x => get v x * get gT x)%K <>
  sum 2 (fun i => nth i gws 0 * inner [2;3;2] (amp (nth i [gopen; gopen2] [])) (amp [site gket 0; gT; gT2]))%K.
Proof. exists (get_ok (single_site_vector gback)). split; [vm_compute; reflexivity|]. vm_compute. discriminate. Qed.

Definition gmopen : @mpo GScalar := [gt [1;2;2;2] 0; gt [2;3;3;3] 1; gt [3;2;2;1] 2].
Lemma gmopen_open : open_mpo gmopen.
Proof.
  split; [discriminate|].
  do 3 (eexists; eexists; eexists; split; [reflexivity|]; split; [reflexivity|]; split; [lia|]; split; [lia|]; split; [lia|]).
  reflexivity.
Qed.
Definition gq0 : qform := get_ok_with (mkQF 0 0 [] []) (qform_new gmopen gopen gket 1).
Definition gS : @tensor GScalar := gt [2;3;1] 6.
Definition gS2 : @tensor GScalar := gt [1;2;1] 5.
Definition gq1 : qform := qf_propagate_right gq0 gS gT.
Definition gq2 : qform := qf_propagate_left gq1 gS2 gT2.
Lemma gq0_ok : qform_new gmopen gopen gket (Z.of_nat 1) = Ok gq0.
Proof. vm_compute. reflexivity. Qed.
Lemma gq1_hist : qf_history gmopen gq1 [site gopen 0; gS] [] [site gket 0; gT] [].
Proof.
  apply (qfh_right gmopen gq0 [site gopen 0] (site gopen 2) [] [site gket 0] (site gket 2) [] gS gT 1 3).
  - exact (qfh_new gmopen gopen gket 1 gq0 gopen_open gket_open eq_refl eq_refl gq0_ok).
  - solve_linked.
  - solve_linked.
  - reflexivity.
  - reflexivity.
Qed.
Lemma gq2_hist : qf_history gmopen gq2 [site gopen 0] [gS2] [site gket 0] [gT2].
Proof.
  apply (qfh_left gmopen gq1 [site gopen 0] gS [] [site gket 0] gT [] gS2 gT2 1 3); [exact gq1_hist|lia|lia|solve_linked|solve_linked|reflexivity|reflexivity].
Qed.
Example C45_ex : exists M, single_site_matrix gq2 = Ok M /\ dims M = [6; 18] /\
  sandwich [site gopen 0; gS; gS2] gmopen [site gket 0; gT; gT2] <> 0%K /\
  msandwich gS M gT = sandwich [site gopen 0; gS; gS2] gmopen [site gket 0; gT; gT2].
Proof. exists (get_ok (single_site_matrix gq2)). split; [vm_compute; reflexivity|]. split; [vm_compute; reflexivity|]. split; vm_compute; [discriminate|reflexivity]. Qed.
Example C45_ex2 : exists M, two_site_matrix gq2 1 = Ok M /\
  msandwich (fold gS 2 gS2 0) M (fold gT 2 gT2 0) = sandwich [site gopen 0; gS; gS2] gmopen [site gket 0; gT; gT2].
Proof. exists (get_ok (two_site_matrix gq2 1)). split; vm_compute; reflexivity. Qed.

(** take_single_site_matrix_diag() adds the diagonals of the three factors instead of multiplying them:
    for the identity on two sites it returns 3 where the matrix has 1. *)
Definition zid2 : @mpo ZScalar := let t := @mk ZScalar [1;2;2;1] (fun x => if Nat.eqb (nth 1 x 0) (nth 2 x 0) then 1%Z else 0%Z) in [t; t].
Definition zprod2 : @mps ZScalar := let t := @mk ZScalar [1;2;1] (fun x => if Nat.eqb (nth 1 x 0) 0 then 1%Z else 0%Z) in [t; t].
Definition zq : qform := get_ok_with (mkQF 0 0 [] []) (qform_new zid2 zprod2 zprod2 0).
Theorem C45_single_diag_refuted : exists (O : @mpo ZScalar) (psi : @mps ZScalar) f M v,
  open_mpo O /\ open_mps psi /\ odims O = idims O /\ pdims psi = odims O /\ qform_new O psi psi 0 = Ok f /\
  single_site_matrix f = Ok M /\ take_single_site_matrix_diag f = Ok v /\ dims M = [2; 2] /\ dims v = [2] /\
  forall i, i < 2 -> get M [i; i] = 1%Z /\ get v [i] = 3%Z.
Proof.
  exists zid2, zprod2, zq, (get_ok_with empty (single_site_matrix zq)), (get_ok_with empty (take_single_site_matrix_diag zq)).
  split.
  { split; [discriminate|].
    do 2 (eexists; eexists; eexists; split; [reflexivity|]; split; [reflexivity|]; split; [lia|]; split; [lia|]; split; [lia|]).
    reflexivity. }
  split; [split; [discriminate|solve_linked]|].
  do 7 (split; [vm_compute; reflexivity|]).
  intros i Hi. assert (i = 0 \/ i = 1) as [-> | ->] by lia; vm_compute; auto.
Qed.
