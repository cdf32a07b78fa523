(** The arithmetic interface of the model.

    The Go code computes with [float64].  Every numeric function of the code is
    transcribed once, against the operations of [Num], and is then available
    both over the reals ([numR], ideal arithmetic) and over IEEE-754 binary64
    ([numF], Flocq, round to nearest even).  There is no fused multiply-add. *)
From Coq Require Import Reals ZArith Bool Lra.
From Flocq Require Import IEEE754.BinarySingleNaN Core.

Class Num (T : Type) := {
  nadd : T -> T -> T;
  nsub : T -> T -> T;
  nmul : T -> T -> T;
  ndiv : T -> T -> T;
  nneg : T -> T;
  nabs : T -> T;             (* math.Abs *)
  nsqrt : T -> T;            (* math.Sqrt *)
  nltb : T -> T -> bool;     (* Go's <  *)
  nleb : T -> T -> bool;     (* Go's <= *)
  neqb : T -> T -> bool;     (* Go's == *)
  nmin : T -> T -> T;        (* math.Min *)
  nmax : T -> T -> T;        (* math.Max *)
  nlit : Z -> positive -> T; (* the literal n/d *)
  ninf : T;                  (* cp.INFINITY = math.MaxFloat64, everything.go:13 *)
  ntrunc : T -> Z;           (* int(f), for f in range *)
}.

(** Transcendental functions; only the ideal instance computes them. *)
Class Trig (T : Type) := {
  ncos : T -> T;
  nsin : T -> T;
  npow : T -> T -> T;
  nexp : T -> T;
  npi : T;
  nfmod : T -> T -> T;       (* math.Mod *)
  nfloor : T -> T;           (* math.Floor *)
}.

Declare Scope num_scope.
Delimit Scope num_scope with num.
Notation "x + y" := (nadd x y) : num_scope.
Notation "x - y" := (nsub x y) : num_scope.
Notation "x * y" := (nmul x y) : num_scope.
Notation "x / y" := (ndiv x y) : num_scope.
Notation "- x" := (nneg x) : num_scope.
Notation "x <? y" := (nltb x y) : num_scope.
Notation "x <=? y" := (nleb x y) : num_scope.
Notation "x =? y" := (neqb x y) : num_scope.
Definition nzero {T} `{Num T} : T := nlit 0 1.
Definition none_ {T} `{Num T} : T := nlit 1 1.
Definition ntwo {T} `{Num T} : T := nlit 2 1.
Definition nhalf {T} `{Num T} : T := nlit 1 2.

(** ** Ideal instance *)
Definition Rltb (x y : R) : bool := if Rlt_dec x y then true else false.
Definition Rleb (x y : R) : bool := if Rle_dec x y then true else false.
Definition Reqb (x y : R) : bool := if Req_EM_T x y then true else false.
(** math.MaxFloat64 = 2^1024 - 2^971 *)
Definition MaxFloat64 : R := IZR (2 ^ 1024 - 2 ^ 971).
(** math.Mod(x,y) = x - y*trunc(x/y), sign of x *)
Definition Rmod (x y : R) : R := (x - y * IZR (Ztrunc (x / y)))%R.

#[export] Instance numR : Num R := {
  nadd := Rplus; nsub := Rminus; nmul := Rmult; ndiv := Rdiv;
  nneg := Ropp; nabs := Rabs; nsqrt := sqrt;
  nltb := Rltb; nleb := Rleb; neqb := Reqb;
  nmin := Rmin; nmax := Rmax;
  nlit := fun n d => match d with xH => IZR n | _ => (IZR n / IZR (Zpos d))%R end;
  ninf := MaxFloat64;
  ntrunc := Ztrunc;
}.

#[export] Instance trigR : Trig R := {
  ncos := cos; nsin := sin; npow := Rpower; nexp := exp; npi := PI; nfmod := Rmod;
  nfloor := fun x => IZR (Zfloor x);
}.

(** ** IEEE binary64 instance *)
Definition F := binary_float 53 1024.
Lemma Hprec : Prec_gt_0 53. Proof. reflexivity. Qed.
Lemma Hmax : Prec_lt_emax 53 1024. Proof. reflexivity. Qed.
#[export] Existing Instance Hprec.
#[export] Existing Instance Hmax.

Definition F_of_Z (n : Z) : F := binary_normalize 53 1024 Hprec Hmax mode_NE n 0 false.
Definition Fadd (x y : F) : F := Bplus mode_NE x y.
Definition Fsub (x y : F) : F := Bminus mode_NE x y.
Definition Fmul (x y : F) : F := Bmult mode_NE x y.
Definition Fdiv (x y : F) : F := Bdiv mode_NE x y.
Definition Fsqrt (x : F) : F := Bsqrt mode_NE x.
Definition Fopp (x : F) : F := Bopp x.
Definition Fabs (x : F) : F := Babs x.
Definition Fltb (x y : F) : bool := Bltb x y.
Definition Fleb (x y : F) : bool := Bleb x y.
Definition Feqb (x y : F) : bool := Beqb x y.
Definition Fnan : F := B754_nan.
Definition Finf (s : bool) : F := B754_infinity s.
Definition Fis_inf (s : bool) (x : F) : bool :=
  match x with B754_infinity s' => Bool.eqb s s' | _ => false end.
Definition Fis_nan (x : F) : bool := is_nan x.
Definition Fzero (x : F) : bool := Feqb x (B754_zero false).
Definition Fsign (x : F) : bool := Bsign x.

(** Go's math.Min: special cases in the order of src/math/dim.go *)
Definition Fmin (x y : F) : F :=
  if (Fis_inf true x || Fis_inf true y)%bool then Finf true
  else if (Fis_nan x || Fis_nan y)%bool then Fnan
  else if (Fzero x && Feqb x y)%bool then (if Fsign x then x else y)
  else if Fltb x y then x else y.

(** Go's math.Max *)
Definition Fmax (x y : F) : F :=
  if (Fis_inf false x || Fis_inf false y)%bool then Finf false
  else if (Fis_nan x || Fis_nan y)%bool then Fnan
  else if (Fzero x && Feqb x y)%bool then (if Fsign x then y else x)
  else if Fltb y x then x else y.

Definition Flit (n : Z) (d : positive) : F := Fdiv (F_of_Z n) (F_of_Z (Zpos d)).

#[export] Instance numF : Num F := {
  nadd := Fadd; nsub := Fsub; nmul := Fmul; ndiv := Fdiv;
  nneg := Fopp; nabs := Fabs; nsqrt := Fsqrt;
  nltb := Fltb; nleb := Fleb; neqb := Feqb;
  nmin := Fmin; nmax := Fmax;
  nlit := Flit;
  ninf := Bmax_float;
  ntrunc := fun x => Btrunc x;
}.

(** ** Order laws shared by both instances.

    [ok x]: [x] is not NaN.  [val] embeds the non-NaN values in the reals,
    preserving and reflecting Go's comparisons; the float infinities go to
    plus/minus 2^1024. *)
Class OrdNum (T : Type) `{NT : Num T} := {
  ok : T -> Prop;
  val : T -> R;
  nltb_val : forall x y, ok x -> ok y -> nltb x y = Rltb (val x) (val y);
  nleb_val : forall x y, ok x -> ok y -> nleb x y = Rleb (val x) (val y);
  neqb_val : forall x y, ok x -> ok y -> neqb x y = Reqb (val x) (val y);
  nleb_ok : forall x y, nleb x y = true -> ok x /\ ok y;
  nltb_ok : forall x y, nltb x y = true -> ok x /\ ok y;
  nmin_ok : forall x y, ok x -> ok y -> ok (nmin x y);
  nmin_val : forall x y, ok x -> ok y -> val (nmin x y) = Rmin (val x) (val y);
  nmax_ok : forall x y, ok x -> ok y -> ok (nmax x y);
  nmax_val : forall x y, ok x -> ok y -> val (nmax x y) = Rmax (val x) (val y);
  nneg_ok : forall x, ok x -> ok (nneg x);
  nneg_val : forall x, ok x -> val (nneg x) = (- val x)%R;
  nabs_ok : forall x, ok x -> ok (nabs x);
  nabs_val : forall x, ok x -> val (nabs x) = Rabs (val x);
  nlit0_ok : ok (nlit 0 1);
  nlit0_val : val (nlit 0 1) = 0%R;
  nlit1_ok : ok (nlit 1 1);
  nlit1_val : val (nlit 1 1) = 1%R;
}.

Lemma Rltb_spec x y : Bool.reflect (x < y)%R (Rltb x y).
Proof. unfold Rltb; destruct (Rlt_dec x y); constructor; auto. Qed.
Lemma Rleb_spec x y : Bool.reflect (x <= y)%R (Rleb x y).
Proof. unfold Rleb; destruct (Rle_dec x y); constructor; auto. Qed.
Lemma Reqb_spec x y : Bool.reflect (x = y)%R (Reqb x y).
Proof. unfold Reqb; destruct (Req_EM_T x y); constructor; auto. Qed.

Lemma Rltb_true x y : (Rltb x y = true <-> (x < y)%R).
Proof. destruct (Rltb_spec x y); split; intros; auto; discriminate. Qed.
Lemma Rleb_true x y : (Rleb x y = true <-> (x <= y)%R).
Proof. destruct (Rleb_spec x y); split; intros; auto; discriminate. Qed.
Lemma Reqb_true x y : (Reqb x y = true <-> (x = y)%R).
Proof. destruct (Reqb_spec x y); split; intros; auto; discriminate. Qed.
Lemma Rltb_false x y : (Rltb x y = false <-> (y <= x)%R).
Proof. destruct (Rltb_spec x y); split; intros; auto; try discriminate; lra. Qed.
Lemma Rleb_false x y : (Rleb x y = false <-> (y < x)%R).
Proof. destruct (Rleb_spec x y); split; intros; auto; try discriminate; lra. Qed.
Lemma Reqb_false x y : (Reqb x y = false <-> (x <> y)%R).
Proof. destruct (Reqb_spec x y); split; intros; auto; try discriminate; contradiction. Qed.

Lemma Rlit (n : Z) (d : positive) : (nlit n d : R) = (IZR n / IZR (Zpos d))%R.
Proof. destruct d; cbn; try reflexivity. unfold Rdiv; rewrite Rinv_1; lra. Qed.

#[export] Instance ordR : @OrdNum R numR.
Proof.
  refine {| ok := fun _ => True; val := fun x => x |}; cbn; auto; intros; lra.
Defined.

(** *** Order embedding of binary64 *)
Definition Fval (x : F) : R :=
  match x with
  | B754_infinity false => bpow radix2 1024
  | B754_infinity true => (- bpow radix2 1024)%R
  | _ => B2R x
  end.
Definition Fok (x : F) : Prop := is_nan x = false.

Lemma Fval_bound (x : F) : is_finite x = true ->
  (- bpow radix2 1024 < Fval x < bpow radix2 1024)%R.
Proof.
  intros Hf.
  pose proof (abs_B2R_lt_emax 53 1024 x) as H.
  apply Rabs_lt_inv in H.
  destruct x; cbn [Fval is_finite] in *; try discriminate; auto.
Qed.
Lemma Fval_fin (x : F) : is_finite x = true -> Fval x = B2R x.
Proof. destruct x; cbn [Fval is_finite]; auto; discriminate. Qed.

Lemma pow1024_pos : (0 < bpow radix2 1024)%R.
Proof. apply bpow_gt_0. Qed.

Lemma Fcmp_val (x y : F) : Fok x -> Fok y ->
  Bcompare x y = Some (Rcompare (Fval x) (Fval y)).
Proof.
  intros Hx Hy. unfold Fok in *.
  destruct (is_finite x) eqn:Fx; destruct (is_finite y) eqn:Fy.
  - rewrite Bcompare_correct by assumption. now rewrite !Fval_fin.
  - pose proof (Fval_bound x Fx) as B.
    destruct y as [| [|] | |]; try discriminate.
    + cbn [Fval]. rewrite Rcompare_Gt by lra. destruct x as [|[|]| |[|]]; try discriminate; reflexivity.
    + cbn [Fval]. rewrite Rcompare_Lt by lra. destruct x as [|[|]| |[|]]; try discriminate; reflexivity.
  - pose proof (Fval_bound y Fy) as B.
    destruct x as [| [|] | |]; try discriminate.
    + cbn [Fval]. rewrite Rcompare_Lt by lra. destruct y as [|[|]| |[|]]; try discriminate; reflexivity.
    + cbn [Fval]. rewrite Rcompare_Gt by lra. destruct y as [|[|]| |[|]]; try discriminate; reflexivity.
  - pose proof pow1024_pos as P.
    destruct x as [| [|] | |]; try discriminate; destruct y as [| [|] | |]; try discriminate; cbn [Fval];
    [rewrite Rcompare_Eq by lra | rewrite Rcompare_Lt by lra | rewrite Rcompare_Gt by lra | rewrite Rcompare_Eq by lra];
    reflexivity.
Qed.

Lemma Fltb_val x y : Fok x -> Fok y -> Fltb x y = Rltb (Fval x) (Fval y).
Proof.
  intros Hx Hy. unfold Fltb, Bltb, SpecFloat.SFltb.
  pose proof (Fcmp_val x y Hx Hy) as H. unfold Bcompare in H. rewrite H.
  destruct (Rcompare_spec (Fval x) (Fval y)); symmetry; [apply Rltb_true | apply Rltb_false | apply Rltb_false]; lra.
Qed.
Lemma Fleb_val x y : Fok x -> Fok y -> Fleb x y = Rleb (Fval x) (Fval y).
Proof.
  intros Hx Hy. unfold Fleb, Bleb, SpecFloat.SFleb.
  pose proof (Fcmp_val x y Hx Hy) as H. unfold Bcompare in H. rewrite H.
  destruct (Rcompare_spec (Fval x) (Fval y)); symmetry; [apply Rleb_true | apply Rleb_true | apply Rleb_false]; lra.
Qed.
Lemma Feqb_val x y : Fok x -> Fok y -> Feqb x y = Reqb (Fval x) (Fval y).
Proof.
  intros Hx Hy. unfold Feqb, Beqb, SpecFloat.SFeqb.
  pose proof (Fcmp_val x y Hx Hy) as H. unfold Bcompare in H. rewrite H.
  destruct (Rcompare_spec (Fval x) (Fval y)); symmetry; [apply Reqb_false | apply Reqb_true | apply Reqb_false]; lra.
Qed.
Lemma Fleb_ok x y : Fleb x y = true -> Fok x /\ Fok y.
Proof. destruct x, y; cbn; unfold Fok; cbn; auto; try (destruct s; discriminate); discriminate. Qed.
Lemma Fltb_ok x y : Fltb x y = true -> Fok x /\ Fok y.
Proof. destruct x, y; cbn; unfold Fok; cbn; auto; try (destruct s; discriminate); discriminate. Qed.

Lemma Fis_inf_true x : Fis_inf true x = true -> x = Finf true.
Proof. destruct x as [| [|] | |]; cbn; try discriminate; reflexivity. Qed.
Lemma Fis_inf_false x : Fis_inf false x = true -> x = Finf false.
Proof. destruct x as [| [|] | |]; cbn; try discriminate; reflexivity. Qed.
Lemma Fval_le_inf x : Fok x -> (Fval x <= bpow radix2 1024)%R.
Proof.
  intros H. pose proof pow1024_pos as P. destruct (is_finite x) eqn:E.
  - pose proof (Fval_bound x E); lra.
  - destruct x as [| [|] | |]; try discriminate; cbn [Fval Bopp negb]; lra.
Qed.
Lemma Fval_ge_inf x : Fok x -> (- bpow radix2 1024 <= Fval x)%R.
Proof.
  intros H. pose proof pow1024_pos as P. destruct (is_finite x) eqn:E.
  - pose proof (Fval_bound x E); lra.
  - destruct x as [| [|] | |]; try discriminate; cbn [Fval Bopp negb]; lra.
Qed.

Lemma Fmin_spec x y : Fok x -> Fok y -> Fok (Fmin x y) /\ Fval (Fmin x y) = Rmin (Fval x) (Fval y).
Proof.
  intros Hx Hy. unfold Fmin.
  destruct (Fis_inf true x) eqn:E1; [apply Fis_inf_true in E1; subst; split; [reflexivity|]|];
  [cbn [orb]; cbn [Finf Fval]; rewrite Rmin_left; [reflexivity | now apply Fval_ge_inf]|].
  destruct (Fis_inf true y) eqn:E2; [apply Fis_inf_true in E2; subst; split; [reflexivity|]|];
  [cbn [orb]; cbn [Finf Fval]; rewrite Rmin_right; [reflexivity | now apply Fval_ge_inf]|].
  unfold Fok in Hx, Hy. cbn [orb]. unfold Fis_nan. rewrite Hx, Hy. cbn [orb].
  destruct (Fzero x && Feqb x y)%bool eqn:E3.
  - apply andb_prop in E3 as [_ E3]. rewrite Feqb_val in E3 by assumption. apply Reqb_true in E3.
    destruct (Fsign x); split; auto; rewrite E3; unfold Rmin; destruct (Rle_dec _ _); reflexivity.
  - rewrite Fltb_val by assumption. destruct (Rltb_spec (Fval x) (Fval y)); split; auto.
    + rewrite Rmin_left; lra.
    + rewrite Rmin_right; lra.
Qed.
Lemma Fmax_spec x y : Fok x -> Fok y -> Fok (Fmax x y) /\ Fval (Fmax x y) = Rmax (Fval x) (Fval y).
Proof.
  intros Hx Hy. unfold Fmax.
  destruct (Fis_inf false x) eqn:E1; [apply Fis_inf_false in E1; subst; split; [reflexivity|]|];
  [cbn [orb]; cbn [Finf Fval]; rewrite Rmax_left; [reflexivity | now apply Fval_le_inf]|].
  destruct (Fis_inf false y) eqn:E2; [apply Fis_inf_false in E2; subst; split; [reflexivity|]|];
  [cbn [orb]; cbn [Finf Fval]; rewrite Rmax_right; [reflexivity | now apply Fval_le_inf]|].
  unfold Fok in Hx, Hy. cbn [orb]. unfold Fis_nan. rewrite Hx, Hy. cbn [orb].
  destruct (Fzero x && Feqb x y)%bool eqn:E3.
  - apply andb_prop in E3 as [_ E3]. rewrite Feqb_val in E3 by assumption. apply Reqb_true in E3.
    destruct (Fsign x); split; auto; rewrite E3; unfold Rmax; destruct (Rle_dec _ _); reflexivity.
  - rewrite Fltb_val by assumption. destruct (Rltb_spec (Fval y) (Fval x)); split; auto.
    + rewrite Rmax_left; lra.
    + rewrite Rmax_right; lra.
Qed.

Lemma Fneg_spec x : Fok x -> Fok (Fopp x) /\ Fval (Fopp x) = (- Fval x)%R.
Proof.
  intros Hx. unfold Fok, Fopp in *. split; [now rewrite is_nan_Bopp|].
  destruct (is_finite x) eqn:E.
  - rewrite !Fval_fin by (rewrite ?is_finite_Bopp; assumption). apply B2R_Bopp.
  - destruct x as [|[|]| |]; try discriminate; cbn [Fval Bopp negb]; lra.
Qed.
Lemma Fabs_spec x : Fok x -> Fok (Fabs x) /\ Fval (Fabs x) = Rabs (Fval x).
Proof.
  intros Hx. unfold Fok, Fabs in *. split; [now rewrite is_nan_Babs|].
  destruct (is_finite x) eqn:E.
  - rewrite !Fval_fin by (rewrite ?is_finite_Babs; assumption). apply B2R_Babs.
  - pose proof pow1024_pos. destruct x as [|[|]| |]; try discriminate; cbn [Babs Fval];
    [rewrite Rabs_left by lra; lra | rewrite Rabs_right by lra; lra].
Qed.

Lemma Flit0 : Flit 0 1 = B754_zero false.
Proof. reflexivity. Qed.
Lemma Flit1 : B2SF (Flit 1 1) = SpecFloat.S754_finite false 4503599627370496 (-52).
Proof. vm_compute. reflexivity. Qed.
Lemma Flit1_val : Fok (Flit 1 1) /\ Fval (Flit 1 1) = 1%R.
Proof.
  pose proof Flit1 as H. destruct (Flit 1 1) as [| | |s m e Hb]; try discriminate.
  split; [reflexivity|]. cbn in H. injection H; intros; subst. cbn [Fval B2R].
  unfold F2R; cbn. lra.
Qed.

#[export] Instance ordF : @OrdNum F numF.
Proof.
  refine {| ok := Fok; val := Fval |}; cbn [nltb nleb neqb nmin nmax nneg nabs nlit numF].
  - apply Fltb_val.
  - apply Fleb_val.
  - apply Feqb_val.
  - apply Fleb_ok.
  - apply Fltb_ok.
  - intros; now apply Fmin_spec.
  - intros; now apply Fmin_spec.
  - intros; now apply Fmax_spec.
  - intros; now apply Fmax_spec.
  - intros; now apply Fneg_spec.
  - intros; now apply Fneg_spec.
  - intros; now apply Fabs_spec.
  - intros; now apply Fabs_spec.
  - reflexivity.
  - reflexivity.
  - apply Flit1_val.
  - apply Flit1_val.
Defined.

(** NaN makes every comparison false. *)
Lemma Fnan_cmp x : Fltb Fnan x = false /\ Fltb x Fnan = false /\ Fleb Fnan x = false /\ Fleb x Fnan = false
  /\ Feqb Fnan x = false /\ Feqb x Fnan = false.
Proof. destruct x as [|[|]| |[|]]; cbn; auto 10. Qed.
