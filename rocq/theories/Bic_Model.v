(** Model of the test of X-means by the Bayesian information criterion, src/zm_mva_cluster.c:796-822.
    [fexp], [flog] are exp and log of libm, [half] is 0.5, [k] is the size of a core. *)
From Coq Require Import List.
From Verif Require Import Prelude Scalar Fmat LE_Model IP_Model Vop Stat_Model Cluster_Model.

Section Bic.
  Context {T : Type} {ST : Scalar T}.
  Local Open Scope S_scope.
  Local Notation vec := (fvec T).
  Variable fexp flog : T -> T.
  Variable half : T.
  Variable errsq : vec -> vec -> res T.
  Variable pt : nat -> vec.
  Local Notation nat_ n := (sofZ (Z.of_nat n)).

  (** 797-801 *)
  Definition _zVecClusterXMeansPDF (c : cluster) (x : vec) : res T :=
    e <- errsq x (core c) ;; Ok (fexp (- half * e / var c) / ssqrt (var c)).
  (** 810-818: one of the two loops *)
  Definition logsum (c1 c2 : cluster) (l : list nat) (ls : T) : res T :=
    foreach l (fun p ls =>
      a <- _zVecClusterXMeansPDF c1 (pt p) ;; b <- _zVecClusterXMeansPDF c2 (pt p) ;; Ok (ls + flog (a + b))) ls.
  (** 804-822 *)
  Definition _zVecMultiClusterXMeansCheckBIC (k : nat) (c c1 c2 : cluster) : res bool :=
    let n := length (sam c) in
    ls <- logsum c1 c2 (sam c1) 0 ;;
    ls <- logsum c1 c2 (sam c2) ls ;;
    let bic1 := nat_ n * (flog (var c) + 1) in
    let bic2 := sofZ 2%Z * (nat_ n * flog (sofZ 2%Z) - ls) + nat_ k * flog (nat_ n) in
    Ok (slt bic1 bic2).
End Bic.
