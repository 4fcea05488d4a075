(** C129: polynomials in files. *)
From Coq Require Import Reals Lra.
From Verif Require Import Prelude Prelude_Proofs Scalar Fmat Fmat_Proofs Scan_Model Scan_Props Pexs_Model.

Section Pexs.
  Context {T : Type} {ST : Scalar T}.
  Variable ftoi : T -> Z.
  Variable p10 : T -> T.
  (** Reading a polynomial of degree dim: its coefficients are the next dim+1 numbers, those missing are zero
      and there is one warning with the number of those read; the rest of the file is left. *)
  Theorem C129_scan (dim : nat) l : exists p,
    zPexFScan ftoi (TI (Z.of_nat dim) :: l) = Ok (Some p, if (length l <? S dim)%nat then [(length l, S dim)] else [], skipn (S dim) l) /\
    vlen p = S dim /\ forall i, (i <= dim)%nat -> vel p i = number l i.
  Proof.
    unfold zPexFScan. cbn [zFInt]. destruct (Z.leb_spec (Z.of_nat dim + 1) 0); [lia|].
    replace (Z.to_nat (Z.of_nat dim + 1)) with (S dim) by lia. cbv zeta.
    destruct (scan_vec_spec (S dim) 0 (FV (S dim) (fun _ => s0)) l) as (v & E & L & G); [cbn; lia|]. rewrite E. cbn [bind].
    exists v. split; [|split; auto].
    - destruct (length l <? S dim)%nat; reflexivity.
    - intros i Hi. rewrite G. cbn [vel]. rewrite Nat.sub_0_r. destruct (Nat.leb_spec 0 i); [|lia]. cbn [andb].
      destruct (Nat.ltb_spec i (0 + Nat.min (S dim) (length l))); auto. symmetry. apply number_over. lia.
  Qed.
  Theorem C129_refused (z : Z) l : (z < 0)%Z -> zPexFScan ftoi (TI z :: l) = Ok (None, [], l).
  Proof. intros H. unfold zPexFScan. cbn [zFInt]. destruct (Z.leb_spec (z + 1) 0); [reflexivity|lia]. Qed.
  (** What is printed is read back, to ten digits, and what follows in the file is left. *)
  Theorem C129_round_trip (p : fvec T) l : (0 < vlen p)%nat -> exists p',
    zPexFScan ftoi (zPexFPrint p10 (Some p) ++ l) = Ok (Some p', [], l) /\ vlen p' = vlen p /\ forall i, (i < vlen p)%nat -> vel p' i = p10 (vel p i).
  Proof.
    intros H. cbn [zPexFPrint app]. replace (Z.of_nat (vlen p) - 1)%Z with (Z.of_nat (vlen p - 1)) by lia.
    fold (zRawVecValueFPrint p10 (vlen p) (vel p)).
    destruct (C129_scan (vlen p - 1) (zRawVecValueFPrint p10 (vlen p) (vel p) ++ l)) as (v' & E & L & G).
    replace (S (vlen p - 1)) with (vlen p) in * by lia.
    exists v'. split; [|split; auto].
    - rewrite E. rewrite app_length, print_len. destruct (Nat.ltb_spec (vlen p + length l) (vlen p)); [lia|].
      do 2 f_equal. rewrite skipn_app, print_len, Nat.sub_diag, (skipn_all2 (n := vlen p)) by (rewrite print_len; lia). reflexivity.
    - intros i Hi. rewrite G by lia. now apply print_nth.
  Qed.
End Pexs.
(** Refuted: the reading of every file is defined.  At the end of a file, hence after the null polynomial is
    printed, the degree is read from a variable that has no value. *)
Theorem C129_empty_refuted : zPexFScan (T := R) (fun _ => 0%Z) (zPexFPrint (fun x => x) None) = UB.
Proof. reflexivity. Qed.
(** It is the only such case. *)
Theorem C129_defined {T} `{Scalar T} (ftoi : T -> Z) l : l <> [] -> zPexFScan ftoi l <> UB.
Proof.
  intros Hl. unfold zPexFScan. destruct l as [|t l]; [congruence|].
  assert (E : exists z, zFInt ftoi (t :: l) = Some (z, l)) by (destruct t; cbn; eauto). destruct E as (z & ->).
  destruct (z + 1 <=? 0)%Z; [discriminate|]. cbv zeta.
  destruct (scan_vec_spec (Z.to_nat (z + 1)) 0 (FV (Z.to_nat (z + 1)) (fun _ => s0)) l) as (v & E & _); [cbn; lia|]. rewrite E. cbn [bind]. discriminate.
Qed.
Example C129_witness : exists p, zPexFScan (T := R) (fun _ => 0%Z) [TI 1; TD 5%R; TD 7%R; TI 9] = Ok (Some p, [], [TI 9]) /\ vel p 0 = 5%R /\ vel p 1 = 7%R.
Proof.
  destruct (C129_scan (T := R) (fun _ => 0%Z) 1 [TD 5%R; TD 7%R; TI 9]) as (p & E & L & G). exists p. split; [exact E|].
  split; [now rewrite G by lia|now rewrite G by lia].
Qed.
Print Assumptions C129_scan. Print Assumptions C129_refused. Print Assumptions C129_round_trip. Print Assumptions C129_empty_refuted. Print Assumptions C129_defined.
