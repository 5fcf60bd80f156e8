(** The two-site step: no other pair of tensors, with a bond of at most Dmax between them, is closer *)
From Coq Require Import Reals Lra Bool List Arith ZArith Lia Ring.
From Verif Require Import Scalar ScalarFacts RScal Tensor TensorFacts Spec MpsModel MpsFacts StateFacts StateFacts2 MpoSpec CanonSpec CanonModel
  TruncFacts SplitFacts CanonFacts CanonSweep CanonNorm CanonProps CanonTwo SweepModel SweepSpec SweepFacts FormModel FormSpec LFormFacts LFormValue
  SimplifySpec SimplifyModel EckartYoung SimplifyFacts SimplifyStep SimplifyPair SimplifyDouble MinLocal.
Import ListNotations.
Local Open Scope K_scope.

Section Best.
Context {RS : RScal}.
Add Ring Kring : k_ring.
Variable svd : tensor -> tensor * list R * tensor.
Variable flag : R.
Hypothesis Hsvd : svd_contract svd.
Variables (ws : list K) (bras : list mps) (ds : list nat).
Hypothesis Hg : good_bras ws bras ds.
Notation D2 P := (dist2 ds (combo ws bras) (amp P)).

Lemma put2_put2 k P A B A' B' : (S k < length P)%nat -> put2 k (put2 k P A B) A' B' = put2 k P A' B'.
Proof.
  intros Hk. destruct (put2_replace k P A B A' Hk) as (E1 & _). 
  assert (Hl : length (firstn k P) = k) by (rewrite firstn_length; lia).
  unfold put2. rewrite firstn_app, Hl, Nat.sub_diag, firstn_O, app_nil_r, firstn_firstn, Nat.min_id. f_equal. f_equal. f_equal.
  rewrite skipn_app, Hl. rewrite skipn_all2 by lia. replace (S (S k) - k)%nat with 2%nat by lia. reflexivity.
Qed.

(** The distance after any replacement of the pair, when the rest is orthogonal *)
Lemma pair_any kk P v a i m j c A B b k : open_mps P -> pdims P = ds -> (S kk < length P)%nat ->
  dims (site P kk) = [a; i; m] -> dims (site P (S kk)) = [m; j; c] -> (0 < a /\ 0 < i /\ 0 < m /\ 0 < j /\ 0 < c)%nat ->
  (forall A B b, (0 < b)%nat -> wf A -> dims A = [a; i; b] -> wf B -> dims B = [b; j; c] ->
      sum4 a i j c (fun x y z w => kconj (get v [x; y; z; w]) * joined A B x y z w) = overlap ws bras (put2 kk P A B)) ->
  (k = kk \/ k = S kk) -> canonical_at k P ->
  (0 < b)%nat -> wf A -> dims A = [a; i; b] -> wf B -> dims B = [b; j; c] ->
  rinj (D2 (put2 kk P A B)) = rinj (weight ds (combo ws bras)) - sum4 a i j c (fun x y z w => kconj (get v [x; y; z; w]) * get v [x; y; z; w])
    + sum4 a i j c (fun x y z w => kconj (get v [x; y; z; w] - joined A B x y z w) * (get v [x; y; z; w] - joined A B x y z w)).
Proof.
  intros Ho Hd Hkk D1 E1 Hpos Hov Hk Hc Hb HwA HdA HwB HdB. pose proof Hpos as (Ha & Hi & Hm & Hj & Hc0).
  set (x := fun r => let u := unravel [a; i; j; c] r in joined A B (nth 0 u 0%nat) (nth 1 u 0%nat) (nth 2 u 0%nat) (nth 3 u 0%nat)).
  assert (Eamp : forall is, in_range ds is -> amp (put2 kk P A B) is = amp (put2 kk P (id3 a i) (ten [a * i; j; c]%nat x)) is).
  { intros is Hi'. rewrite (put2_emb ds kk P a i m j c Ho Hd Hkk D1 E1 Hpos A B b Hb HwA HdA HwB HdB is Hi'). fold x.
    rewrite (emb2_eq kk P a i m j c D1 E1). reflexivity. }
  assert (ED : D2 (put2 kk P A B) = D2 (put2 kk P (id3 a i) (ten [a * i; j; c]%nat x))).
  { apply rinj_inj. unfold dist2. rewrite !rinj_weight. unfold inner. apply sumcfg_ext. intros is Hi'. rewrite Eamp by exact Hi'. reflexivity. }
  assert (Ej : forall p q r s, (p < a)%nat -> (q < i)%nat -> (r < j)%nat -> (s < c)%nat -> joined (id3 a i) (ten [a * i; j; c]%nat x) p q r s = joined A B p q r s).
  { intros p q r s Hp Hq Hr Hs. rewrite join_id3 by assumption. unfold x. cbv zeta. rewrite unravel_offset by (apply in_range_4; assumption). reflexivity. }
  rewrite ED. rewrite (pair_dist ws bras ds Hg kk P v (id3 a i) (ten [a * i; j; c]%nat x) a i m j c (a * i)%nat); try assumption; try reflexivity; try (apply wf_mk); try (apply wf_ten); try nia.
  - f_equal. apply sum4_ext. intros p q r s Hp Hq Hr Hs. rewrite Ej by assumption. reflexivity.
  - apply (Hov _ _ (a * i)%nat); try reflexivity; [nia|apply wf_mk|apply wf_ten].
  - right. pose proof (emb2_canon kk P a i m j c Hkk D1 E1 Hpos k x Hk Hc) as Hcc. rewrite (emb2_eq kk P a i m j c D1 E1) in Hcc. exact Hcc.
Qed.

Lemma core_best Dmax tol d k k' P v P' : open_mps P -> pdims P = ds -> (k < length P)%nat -> moved d (length P) k k' ->
  repr2 ws bras (Nat.min k k') P v -> nz ws bras (eff_tol flag tol) P ->
  set_canonical_2_sites svd flag P (tconj v) (Z.of_nat k) (sgn d) Dmax tol false = Ok P' -> canonical_at k' P' -> exact_tol flag tol ->
  forall A B b, (0 < b)%nat -> (Dmax <= 0 \/ Z.of_nat b <= Dmax)%Z -> wf A -> wf B ->
    dims A = [dim (site P' (Nat.min k k')) 0; dim (site P' (Nat.min k k')) 1; b] ->
    dims B = [b; dim (site P' (S (Nat.min k k'))) 1; dim (site P' (S (Nat.min k k'))) 2] ->
    (D2 P' <= D2 (put2 (Nat.min k k') P' A B))%R.
Proof.
  intros Ho Hpd Hk Hm Hrep Hn E Hcan He A B b' Hb' HD HwA HwB HdA HdB.
  pose proof Hrep as (a & i & m & j & c & Hwv & Hdv & HP1 & HP2 & HwP1 & HwP2 & Ha & Hi & Hm0 & Hj & Hc & Hov).
  destruct (double_core svd flag Hsvd ws bras ds Hg Dmax tol d k k' P v Ho Hpd Hk Hm Hrep Hn) as (P1 & E1 & (O1 & D1 & Hk1 & Hl1 & _) & _).
  rewrite E in E1. apply Ok_inj' in E1. subst P1.
  set (kk := Nat.min k k') in *.
  assert (Hkk : (S kk < length P)%nat) by (unfold kk; destruct d; cbn in Hm; lia).
  assert (Hdc : dims (tconj v) = [a; i; j; c]) by exact Hdv. pose proof (wf_tconj v Hwv) as Hwc.
  destruct (s2s_false svd flag Hsvd P (tconj v) a i j c kk (sgn d) Dmax tol Hkk Hdc Hwc Ha Hi Hj Hc) as (Pi & Pj & U & sv & V & Etp & E2 & HSvd & HPS).
  assert (Hdd : (0 <? sgn d)%Z = d) by (destruct d; reflexivity). rewrite Hdd in *. cbv zeta in *.
  assert (Hst : (if d then kk else S kk) = k) by (unfold kk; destruct d; cbn in Hm; lia). rewrite Hst in E2. fold (put2 kk P Pi Pj) in E2.
  rewrite E in E2. apply Ok_inj' in E2.
  set (b := where_to_truncate flag sv tol Dmax) in *.
  assert (Hle : (b <= length sv)%nat) by apply wtt_le_length.
  pose proof HPS as (HdPi & HwPi & HdPj & HwPj & Hiso & Hrec).
  assert (HsPi : site P' kk = Pi) by (rewrite E2, site_put2, Nat.eqb_refl by exact Hkk; reflexivity).
  assert (HsPj : site P' (S kk) = Pj).
  { rewrite E2, site_put2 by exact Hkk. destruct (Nat.eqb_spec (S kk) kk); [lia|]. rewrite Nat.eqb_refl. reflexivity. }
  assert (Hkk' : (S kk < length P')%nat) by lia.
  destruct (site2_dims kk P' O1 Hkk') as (a' & i' & b0 & j' & c' & S1 & S2 & _ & _ & Hpos).
  rewrite HsPi in S1. rewrite HsPj in S2. pose proof S1 as S1'. pose proof S2 as S2'. rewrite HdPi in S1. injection S1 as <- <- <-. rewrite HdPj in S2. injection S2 as <- <-.
  unfold dim in HdA, HdB. rewrite HsPi, HdPi in HdA. rewrite HsPj, HdPj in HdB. cbn [nth] in HdA, HdB.
  assert (Hov' : forall A B b, (0 < b)%nat -> wf A -> dims A = [a; i; b] -> wf B -> dims B = [b; j; c] ->
      sum4 a i j c (fun x y z w => kconj (get (tconj v) [x; y; z; w]) * joined A B x y z w) = overlap ws bras (put2 kk P' A B)).
  { intros A0 B0 b1 H1 H2 H3 H4 H5. rewrite E2, put2_put2 by exact Hkk. rewrite <- (Hov A0 B0 b1) by assumption. apply sum4_ext. intros. rewrite get_tconj, kconj_inv. reflexivity. }
  assert (Hkor : k' = kk \/ k' = S kk) by (unfold kk; destruct d; cbn in Hm; lia).
  assert (Hs1 : dims (site P' kk) = [a; i; b]) by (rewrite HsPi; exact HdPi).
  assert (Hs2 : dims (site P' (S kk)) = [b; j; c]) by (rewrite HsPj; exact HdPj).
  assert (Hb : (0 < b)%nat) by apply Hpos.
  pose proof (pair_any kk P' (tconj v) a i b j c A B b' k' O1 D1 Hkk' Hs1 Hs2 Hpos Hov' Hkor Hcan Hb' HwA HdA HwB HdB) as Hnew.
  pose proof (pair_any kk P' (tconj v) a i b j c Pi Pj b k' O1 D1 Hkk' Hs1 Hs2 Hpos Hov' Hkor Hcan Hb HwPi HdPi HwPj HdPj) as Hold.
  assert (Eself : put2 kk P' Pi Pj = P') by (rewrite <- HsPi, <- HsPj at 1; apply put2_self; exact Hkk'). rewrite Eself in Hold.
  destruct (pair_best svd Hsvd (tconj v) a i j c U sv V b' A B HSvd Hdc Ha Hi Hj Hb' HdA HdB) as (r & Hr1 & Hr2).
  destruct (pair_error (tconj v) a i j c d Pi Pj U sv V b HSvd Hdc Hle HPS) as (He1 & He2).
  fold (sum4 a i j c (fun x y z w => kconj (get (tconj v) [x; y; z; w] - joined Pi Pj x y z w) * (get (tconj v) [x; y; z; w] - joined Pi Pj x y z w))) in He1.
  fold (sum4 a i j c (fun x y z w => kconj (get (tconj v) [x; y; z; w]) * get (tconj v) [x; y; z; w])) in He2.
  rewrite He1, He2 in Hold. rewrite <- Hr2, He2 in Hnew.
  rewrite <- !rinj_sub, <- !rinj_add in Hnew, Hold. apply rinj_inj in Hnew, Hold.
  pose proof (wtt_tail flag sv tol Dmax b' He HD) as Ht. fold b in Ht. lra.
Qed.
End Best.
