(** * A text format that meets the assumptions of C96: six significant decimal digits, as operator<< prints by default. *)
From Coq Require Import Reals Lra Lia ZArith List Psatz.
From Flocq Require Import Core Relative.
From Verif Require Import ModelFill ModelLie SpecLie ModelSE ModelSim SpecLieIO ModelLieIO Base Mat SpecMat SpecLin Inst SpecFl ExFl SpecFlSO3 ModelFlSO3 PropLieIO PropFlSO3 LemFro PropSO3.
Import ListNotations.
Local Open Scope R_scope.

Definition radix10 : radix := Build_radix 10 eq_refl.
Definition digits6 (x : R) : Z := ZnearestE (scaled_mantissa radix10 (FLX_exp 6) x).
Definition expo6 (x : R) : Z := cexp radix10 (FLX_exp 6) x.
Definition zcode (z : Z) : text := [Ch (Z.to_nat z); Ch (Z.to_nat (- z))].
(** mantissa and exponent, each as a pair of characters *)
Definition show6 (x : R) : text := zcode (digits6 x) ++ zcode (expo6 x).
Definition parse6 (t : text) : option (R * text) :=
  match t with
  | Ch a :: Ch b :: Ch c :: Ch d :: t' => Some (IZR (Z.of_nat a - Z.of_nat b) * bpow radix10 (Z.of_nat c - Z.of_nat d), t')
  | _ => None
  end.
Lemma reads6 x : reads_as show6 parse6 x (round radix10 (FLX_exp 6) ZnearestE x).
Proof.
  split; [exists (Ch (Z.to_nat (digits6 x))); eexists; split; reflexivity|]. intros t _. unfold show6, zcode. cbn [app parse6].
  assert (Z1 : forall z, (Z.of_nat (Z.to_nat z) - Z.of_nat (Z.to_nat (- z)) = z)%Z) by (intros z; lia). rewrite !Z1. reflexivity.
Qed.
Lemma precision6 : text_precision show6 parse6 (5 / 10 ^ 6).
Proof.
  intros x. eexists. split; [apply reads6|]. pose proof (relative_error_N_FLX radix10 6 eq_refl (fun z => negb (Z.even z)) x) as H.
  eapply Rle_trans; [exact H|]. apply Rmult_le_compat_r; [apply Rabs_pos|]. cbn. lra.
Qed.
Lemma exact6 x m e : x = IZR m * bpow radix10 e -> (Z.abs m < 10 ^ 6)%Z -> exact_text show6 parse6 x.
Proof.
  intros -> H. unfold exact_text. assert (E : round radix10 (FLX_exp 6) ZnearestE (IZR m * bpow radix10 e) = IZR m * bpow radix10 e).
  { apply round_generic; [apply valid_rnd_N|]. apply generic_format_FLX. apply (FLX_spec radix10 6 _ (Float radix10 m e)); [reflexivity|exact H]. }
  rewrite <- E at 2. apply reads6.
Qed.
Lemma exactZ m : (Z.abs m < 10 ^ 6)%Z -> exact_text show6 parse6 (IZR m).
Proof. apply (exact6 (IZR m) m 0). cbn. ring. Qed.

(** a quarter turn and a translation, with and without a scale of two, and padding by one blank: all the hypotheses hold *)
Definition quarter : M3 := mkM (mk3 0 (-1) 0) (mk3 1 0 0) (mk3 0 0 1).
Lemma quarter_rotation : rotation quarter.
Proof. unfold rotation, orthonormal, quarter, det3, dot3. cbn. repeat split; lra. Qed.
Lemma quarter_exact s : exactM show6 parse6 (scaleM (IZR s) quarter) \/ (10 ^ 6 <= Z.abs s)%Z.
Proof.
  destruct (Z_lt_le_dec (Z.abs s) (10 ^ 6)) as [H|H]; [left|right; exact H].
  assert (P : exact_text show6 parse6 (IZR s)) by (apply exactZ; exact H). assert (M : exact_text show6 parse6 (- IZR s)) by (rewrite <- opp_IZR; apply exactZ; lia).
  assert (O : exact_text show6 parse6 0) by (apply exactZ; reflexivity).
  unfold exactM, exact3, scaleM, scale3, quarter. cbn. rewrite !Rmult_0_r, !Rmult_1_r. replace (IZR s * -1) with (- IZR s) by ring. tauto.
Qed.
Example C96_case old : se3_read parse6 so3_coerce old (Some (se3_text show6 (fun _ => 1%nat) (mkSE3 quarter (mk3 (3 / 2) (-2) 0)) ++ [])) = Ok (mkSE3 quarter (mk3 (3 / 2) (-2) 0), Some [Newline]) /\
  (forall old, sim3_read parse6 so3_coerce old (Some (sim3_text show6 (fun _ => 1%nat) (mkSIM3 quarter (mk3 1 2 3) 2) ++ [])) = Ok (mkSIM3 quarter (mk3 1 2 3) 2, Some [Newline])) /\
  (forall old, sim3_read parse6 so3_coerce old (Some (sim3_text show6 (fun _ => 1%nat) (mkSIM3 quarter (mk3 1 2 3) (-2)) ++ [])) = Abort DAssert).
Proof.
  split; [|split].
  - apply C96_se3; cbn [rot trans]; [exact quarter_rotation| |].
    + destruct (quarter_exact 1) as [H|H]; [rewrite scaleM_1 in H; exact H|cbn in H; lia].
    + unfold exact3. cbn. split; [apply (exact6 _ 15 (-1)); [cbn; lra|reflexivity]|split; apply exactZ; reflexivity].
  - intros o. apply C96_sim3; cbn [mrot mscl mtrans]; [exact quarter_rotation|lra|destruct (quarter_exact 2) as [H|H]; [exact H|cbn in H; lia]|]. unfold exact3. cbn. repeat split; try (apply exactZ; reflexivity); apply reads6.
  - intros o. apply C96_sim3_negative_refuted; cbn [mrot mscl mtrans]; [exact quarter_rotation|lra|destruct (quarter_exact (-2)) as [H|H]; [exact H|cbn in H; lia]|]. unfold exact3. cbn. split; [|split]; apply exactZ; reflexivity.
Qed.
(** printed with the default six digits and read back in double precision, a rotation moves by less than 7e-4 and is orthonormal to working precision *)
Example C96_rounded_case r pad old rest : rotation r ->
  exists x, so3_read parse6 (fl_so3_coerce rnd64) old (Some (so3_text show6 pad r ++ rest)) = Ok (x, Some (Newline :: rest)) /\ dist x r <= 7 / 10 ^ 4 /\ exists t, rotation t /\ dist x t <= / 10 ^ 12.
Proof.
  intros H. assert (Z : dist r r <= 0) by (rewrite dist_refl; lra).
  pose proof u64_rng. destruct (C96_rounded show6 parse6 pad _ rnd64 _ rnd64_rounding ltac:(cbn in *; lra) precision6 r r 0 old rest H Z ltac:(cbn; lra)) as (x & E & D & t & Ht & Dt).
  exists x. split; [exact E|]. split; [cbn in *; lra|]. exists t. split; [exact Ht|cbn in *; lra].
Qed.
(** an SL(2) matrix, and a stream with nothing but a blank left in it *)
Example C96_sl_case pad old rest : mrows old = 2%nat -> mcols old = 2%nat ->
  exists t C, sl_text show6 pad (mkmat 2 2 (fun i j => if Nat.eqb i j then 1 else if Nat.eqb i 0 then 3 else 0)) = Ok t /\
    sl_read parse6 2 old (Some (t ++ rest)) = Ok (C, Some (Newline :: rest)) /\ mel C 0 1 = 3.
Proof.
  intros A B. destruct (C96_sl show6 parse6 pad 2 (mkmat 2 2 (fun i j => if Nat.eqb i j then 1 else if Nat.eqb i 0 then 3 else 0)) old rest) as (t & C & E1 & E2 & (_ & _ & E3));
    [lia|reflexivity|reflexivity|exact A|exact B| | |].
  - unfold det, sgn, skip. cbn. ring.
  - intros i j Hi Hj. cbn [mel]. destruct (Nat.eqb i j); [|destruct (Nat.eqb i 0)]; apply exactZ; reflexivity.
  - exists t, C. split; [exact E1|]. split; [exact E2|]. rewrite E3 by lia. reflexivity.
Qed.
Example C96_exhausted_case : exhausted parse6 [Blank] /\ sim3_read parse6 so3_coerce (mkSIM3 quarter (mk3 1 2 3) 2) (Some [Blank]) = Ok (mkSIM3 quarter (mk3 1 2 3) 1, None).
Proof. split; [reflexivity|]. apply (proj1 (C96_sim_exhausted_refuted parse6 [Blank] eq_refl)). exact quarter_rotation. Qed.
Print Assumptions C96_case.
Print Assumptions C96_rounded_case.
