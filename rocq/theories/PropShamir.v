(** Properties C01-C03: Shamir secret sharing. *)
From Coq Require Import ZArith Znumtheory List Lia.
From Verif Require Import NumTheory Prime25519 Outcome Fp FSum ShamirModel ShamirSpec
  ShamirProofs ShamirSecret.
Import ListNotations.
Open Scope Z_scope.

Definition s17 := @toF 17.

(** C01.  Whatever coefficients [rs] are drawn (t = 1 + length rs), the shares
    of any reconstruction set of at least t evaluation points give back s. *)
Theorem C01_reconstruction p : prime p -> forall (evs : list Z) (s : Fp p) (rs : list (Fp p)) (rec : list Z),
  good_points (p := p) evs -> NoDup rec -> incl rec evs -> (S (length rs) <= length rec)%nat ->
  getSecret (map (share_of evs (newSharing evs s rs)) rec) rec = Ret s.
Proof. exact (@reconstruct p). Qed.
Print Assumptions C01_reconstruction.

(** The modulus used by the library: every set of positive ints is a legal set of
    evaluation points. *)
Theorem C01_reconstruction_P25519 : forall (evs : list Z) (s : Fp P25519) rs rec,
  NoDup evs -> Forall (fun e => 1 <= e < 2 ^ 31) evs -> NoDup rec -> incl rec evs ->
  (S (length rs) <= length rec)%nat ->
  getSecret (map (share_of evs (newSharing evs s rs)) rec) rec = Ret s.
Proof.
  intros evs s rs rec Hnd Hr. apply (C01_reconstruction P25519 P25519_is_prime). split; [assumption|].
  apply Forall_forall. intros e He. rewrite Forall_forall in Hr. specialize (Hr e He).
  assert (2 ^ 31 < P25519) by reflexivity. lia.
Qed.
Print Assumptions C01_reconstruction_P25519.

Example C01_example :
  getSecret [nth 2 (newSharing [1;2;3;4;5] (s17 7) [s17 3]) (s17 0);
             nth 4 (newSharing [1;2;3;4;5] (s17 7) [s17 3]) (s17 0)] [2;4] = Ret (s17 7).
Proof. vm_compute. f_equal. apply Fp_eq. reflexivity. Qed.

(** The sharing itself is a list of n+1 values starting with the secret. *)
Theorem C01_sharing_shape p (evs : list Z) (s : Fp p) rs :
  length (newSharing evs s rs) = S (length evs) /\ nth 0 (newSharing evs s rs) 0%F = s.
Proof. exact (sharing_shape evs s rs). Qed.
Print Assumptions C01_sharing_shape.

(** C02.  For every matrix H that NTL's kernel may return. *)
Theorem C02_parity_check p : prime p -> forall (thr : Z) (evs : list Z) (M H : list (list (Fp p))),
  good_points (p := p) evs -> genMatrix thr evs = Ret M -> kernel_basis H M (Z.to_nat thr) ->
  forall x, length x = S (length evs) ->
  (Forall (fun r => row_times r x = 0%F) H <-> valid_sharing (Z.to_nat thr) evs x).
Proof. exact (@parity_check p). Qed.
Print Assumptions C02_parity_check.

Theorem C02_sharings_pass p : prime p -> forall (thr : Z) (evs : list Z) (M H : list (list (Fp p))) s rs,
  good_points (p := p) evs -> genMatrix thr evs = Ret M -> kernel_basis H M (Z.to_nat thr) ->
  S (length rs) = Z.to_nat thr ->
  Forall (fun r => row_times r (newSharing evs s rs) = 0%F) H.
Proof.
  intros Hp thr evs M H s rs Hg HM Hk Hl.
  apply (parity_check Hp thr evs M H Hg HM Hk); [cbn; now rewrite !map_length|].
  rewrite <- Hl. apply newSharing_valid.
Qed.
Print Assumptions C02_sharings_pass.

(** The parity-check matrix has n+1-t rows (no rows if t > n+1), and one exists. *)
Theorem C02_number_of_checks p : prime p -> forall (thr : Z) (evs : list Z) (M H : list (list (Fp p))),
  good_points (p := p) evs -> genMatrix thr evs = Ret M -> kernel_basis H M (Z.to_nat thr) ->
  length H = (S (length evs) - Z.to_nat thr)%nat.
Proof.
  intros Hp thr evs M H Hg HM Hk.
  destruct (genMatrix_col _ _ _ HM) as (_ & Hl & _).
  destruct (kernel_rows Hp thr evs M H Hg HM Hk) as [E|[E ->]]; [lia|cbn [length]; lia].
Qed.
Print Assumptions C02_number_of_checks.

Theorem C02_matrix_exists p : prime p -> forall (thr : Z) (evs : list Z),
  good_points (p := p) evs ->
  (0 < thr -> exists M H : list (list (Fp p)), genMatrix thr evs = Ret M /\ kernel_basis H M (Z.to_nat thr)) /\
  (thr = 0 -> genMatrix (p := p) thr evs = UB).
Proof.
  intros Hp thr evs Hg. split.
  - intros Ht. destruct (genMatrix (p := p) thr evs) as [M| | |] eqn:E.
    + destruct (kernel_exists Hp thr evs M Hg E) as [H HH]. eauto.
    + unfold genMatrix in E. destruct (Z.ltb_spec thr 0), (Z.eqb_spec thr 0); try lia; discriminate.
    + unfold genMatrix in E. destruct (Z.ltb_spec thr 0), (Z.eqb_spec thr 0); try lia; discriminate.
    + unfold genMatrix in E. destruct (Z.ltb_spec thr 0), (Z.eqb_spec thr 0); try lia; discriminate.
  - intros ->. reflexivity.
Qed.
Print Assumptions C02_matrix_exists.

(** 2-of-3 sharing modulo 17: one of the two checks is x0 - 2 x1 + x2 = 0. *)
Example C02_example :
  good_points (p := 17) [1;2;3] /\
  genMatrix 2 [1;2;3] = Ret [[s17 1; s17 0]; [s17 1; s17 1]; [s17 1; s17 2]; [s17 1; s17 3]] /\
  row_times [s17 1; s17 15; s17 1; s17 0] (newSharing [1;2;3] (s17 5) [s17 9]) = s17 0 /\
  row_times [s17 1; s17 15; s17 1; s17 0] [s17 5; s17 14; s17 7; s17 0] <> s17 0.
Proof.
  split; [split; [repeat constructor; cbn; intuition lia|repeat constructor; lia]|].
  split; [vm_compute; repeat f_equal; now apply Fp_eq|].
  split; [now apply Fp_eq|]. intros E. apply (f_equal (@fval 17)) in E. vm_compute in E. discriminate.
Qed.

(** C03. *)
Theorem C03_secrecy p : prime p -> forall (evs corrupt : list Z) (ys : list (Fp p)) (t : nat),
  good_points (p := p) evs -> NoDup corrupt -> incl corrupt evs -> length ys = length corrupt ->
  (length corrupt < t)%nat -> forall s : Fp p,
  exists rs, S (length rs) = t /\ map (share_of evs (newSharing evs s rs)) corrupt = ys.
Proof.
  intros Hp evs corrupt ys t Hg Hnd Hi Hl Ht s.
  destruct (secrecy_exists Hp evs corrupt ys s (t - 1) Hg Hnd Hi Hl) as (rs & Hr & E); [lia|].
  exists rs. split; [lia|assumption].
Qed.
Print Assumptions C03_secrecy.

Theorem C03_secrecy_unique p : prime p -> forall (evs corrupt : list Z) (s : Fp p) (rs rs' : list (Fp p)),
  good_points (p := p) evs -> NoDup corrupt -> incl corrupt evs ->
  length rs = length corrupt -> length rs' = length corrupt ->
  map (share_of evs (newSharing evs s rs)) corrupt = map (share_of evs (newSharing evs s rs')) corrupt ->
  rs = rs'.
Proof. exact (@secrecy_unique p). Qed.
Print Assumptions C03_secrecy_unique.

(** Share 4 of party 2 is consistent with the secrets 7 and 8 (t=2). *)
Example C03_example :
  share_of [1;2;3] (newSharing [1;2;3] (s17 7) [s17 7]) 2 = s17 4 /\
  share_of [1;2;3] (newSharing [1;2;3] (s17 8) [s17 15]) 2 = s17 4 /\ (7 <> 8).
Proof. split; [now apply Fp_eq|]. split; [now apply Fp_eq|discriminate]. Qed.
