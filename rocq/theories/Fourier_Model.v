(** Model of the one-dimensional Fourier and cosine/Chebyshev transforms
    (dedalus/core/transforms.py).  Floating point numbers are real numbers; the FFT libraries
    are modelled by the sums they are documented to compute.  A transform acts on one axis;
    the other axes are spectators. *)
From Coq Require Import Reals ZArith.
From stdpp Require Import list list_numbers.
From Verif Require Import Numpy_Model.
Local Open Scope R_scope.

(** ** Sums and complex numbers *)
Fixpoint rsum (n : nat) (f : nat -> R) : R :=
  match n with
  | O => 0
  | S n' => rsum n' f + f n'
  end.

Definition C : Type := R * R.
Definition C0 : C := (0, 0).
Definition Cmul (a b : C) : C := (fst a * fst b - snd a * snd b, fst a * snd b + snd a * fst b).
Definition Cscale (r : R) (a : C) : C := (r * fst a, r * snd a).
(** [exp(i t)]. *)
Definition cis (t : R) : C := (cos t, sin t).
Definition csum (n : nat) (f : nat -> C) : C := (rsum n (fun i => fst (f i)), rsum n (fun i => snd (f i))).

(** Array reads of the sums below; the arrays always have the stated length. *)
Definition rat (x : list R) (i : nat) : R := default 0 (x !! i).
Definition cat (x : list C) (i : nat) : C := default C0 (x !! i).

(** [2 pi k x / N]. *)
Definition angle (N : nat) (k : Z) (x : nat) : R := 2 * PI * IZR k * INR x / INR N.

(** dedalus/core/transforms.py:195-199 and 374-378. *)
Definition Kmax (N M : nat) : nat := Nat.min ((N - 1) / 2) ((M - 1) / 2).

(** ** Complex Fourier *)

(** dedalus/core/transforms.py:201-209.  [(k + KM) % M - KM]. *)
Definition wavenumber (M j : nat) : Z :=
  ((Z.of_nat j + Z.of_nat ((M - 1) / 2)) mod Z.of_nat M - Z.of_nat ((M - 1) / 2))%Z.

(** [np.multiply(x, rescale)] or a plain copy when [rescale is None]. *)
Definition scaled (rescale : option R) (x : list C) : list C :=
  match rescale with None => x | Some r => map (Cscale r) x end.

(** dedalus/core/transforms.py:243-268.  [ComplexFFT.resize_coeffs]. *)
Definition resize_coeffs (K : nat) (rescale : option R) (data_in data_out : list C) : option (list C) :=
  let sl a b (x : list C) := slice_indices a b 1 (length x) in
  if decide (K = 0)%nat then
    d1 ← np_set (sl (Some 0%Z) (Some 1%Z) data_out)
                (scaled rescale (np_get (sl (Some 0%Z) (Some 1%Z) data_in) data_in)) data_out;
    Some (np_fill (sl (Some 1%Z) None data_out) C0 d1)
  else
    let k := Z.of_nat K in
    d1 ← np_set (sl (Some 0%Z) (Some (Z.of_nat (K + 1))) data_out)
                (scaled rescale (np_get (sl (Some 0%Z) (Some (Z.of_nat (K + 1))) data_in) data_in)) data_out;
    let d2 := np_fill (sl (Some (Z.of_nat (K + 1))) (Some (- k)%Z) data_out) C0 d1 in
    np_set (sl (Some (- k)%Z) None data_out)
           (scaled rescale (np_get (sl (Some (- k)%Z) None data_in) data_in)) d2.

(** scipy.fft.fft / FFTW forward (documented): unnormalised, [exp(-2 pi i j x / N)]. *)
Definition fft (N : nat) (g : list C) : list C :=
  map (fun j => csum N (fun x => Cmul (cat g x) (cis (- angle N (Z.of_nat j) x)))) (seq 0 N).
(** FFTW backward: unnormalised, [exp(+2 pi i j x / N)]. *)
Definition fftw_backward (N : nat) (t : list C) : list C :=
  map (fun x => csum N (fun j => Cmul (cat t j) (cis (angle N (Z.of_nat j) x)))) (seq 0 N).
(** scipy.fft.ifft: the same divided by N. *)
Definition ifft (N : nat) (t : list C) : list C := map (Cscale (/ INR N)) (fftw_backward N t).

(** dedalus/core/transforms.py:274-279 and 316-322 (both libraries): [forward].  [cdata]: old
    contents of the output. *)
Definition complex_forward (N M : nat) (gdata cdata : list C) : option (list C) :=
  resize_coeffs (Kmax N M) (Some (/ INR N)) (fft N gdata) cdata.
(** dedalus/core/transforms.py:281-289: [ScipyComplexFFT.backward]; [temp]: uninitialised. *)
Definition complex_backward_scipy (N M : nat) (cdata temp : list C) : option (list C) :=
  t ← resize_coeffs (Kmax N M) (Some (INR N)) cdata temp; Some (ifft N t).
(** dedalus/core/transforms.py:324-330: [FFTWComplexFFT.backward]; [temp]: reused buffer. *)
Definition complex_backward_fftw (N M : nat) (cdata temp : list C) : option (list C) :=
  t ← resize_coeffs (Kmax N M) None cdata temp; Some (fftw_backward N t).

(** Dense matrix-vector product (dedalus/core/transforms.py:57-63). *)
Definition mat_apply_c (rows cols : nat) (m : nat -> nat -> C) (v : list C) : list C :=
  map (fun i => csum cols (fun j => Cmul (cat v j) (m i j))) (seq 0 rows).
Definition mat_apply_r (rows cols : nat) (m : nat -> nat -> R) (v : list R) : list R :=
  map (fun i => rsum cols (fun j => rat v j * m i j)) (seq 0 rows).

(** dedalus/core/transforms.py:215-225: [exp(-1j*K*X/dX) / N * (abs(K) <= Kmax)], dX = N/2/pi. *)
Definition cmmt_forward_entry (N M j x : nat) : C :=
  if decide (Z.abs (wavenumber M j) <= Z.of_nat (Kmax N M))%Z
  then Cscale (/ INR N) (cis (- (IZR (wavenumber M j) * INR x / (INR N / 2 / PI)))) else C0.
(** dedalus/core/transforms.py:227-237. *)
Definition cmmt_backward_entry (N M x j : nat) : C :=
  if decide (Z.abs (wavenumber M j) <= Z.of_nat (Kmax N M))%Z
  then cis (IZR (wavenumber M j) * INR x / (INR N / 2 / PI)) else C0.
Definition cmmt_forward (N M : nat) (g : list C) : list C := mat_apply_c M N (cmmt_forward_entry N M) g.
Definition cmmt_backward (N M : nat) (c : list C) : list C := mat_apply_c N M (cmmt_backward_entry N M) c.

(** ** Real Fourier, complex-valued scratch array given by its real and imaginary parts *)
Definition rscaled (r : R) (x : list R) : list R := map (Rmult r) x.
Definition rsl (a b : option Z) (s : Z) (x : list R) : list nat := slice_indices a b s (length x).

(** dedalus/core/transforms.py:472-487.  [RealFFT.unpack_rescale]. *)
Definition unpack_rescale (K : nat) (rescale : R) (tre tim cdata : list R) : option (list R) :=
  let k2 := Z.of_nat (2 * (K + 1)) in
  c1 ← np_set (rsl (Some 0%Z) (Some 1%Z) 1 cdata)
              (rscaled rescale (np_get (rsl (Some 0%Z) (Some 1%Z) 1 tre) tre)) cdata;
  let c2 := np_fill (rsl (Some 1%Z) (Some 2%Z) 1 cdata) 0 c1 in
  let pos := rsl (Some 1%Z) (Some (Z.of_nat (K + 1))) 1 tre in
  c3 ← np_set (rsl (Some 2%Z) (Some k2) 2 cdata) (rscaled (2 * rescale) (np_get pos tre)) c2;
  c4 ← np_set (rsl (Some 3%Z) (Some k2) 2 cdata) (rscaled (2 * rescale) (np_get pos tim)) c3;
  Some (np_fill (rsl (Some k2) None 1 cdata) 0 c4).

(** dedalus/core/transforms.py:489-510.  [RealFFT.repack_rescale]; storing a real number into
    the complex array sets the imaginary part to zero. *)
Definition repack_rescale (K : nat) (rescale : option R) (cdata tre tim : list R)
  : option (list R * list R) :=
  let k2 := Z.of_nat (2 * (K + 1)) in
  let half := match rescale with None => 1 / 2 | Some r => r / 2 end in
  let mean := np_get (rsl (Some 0%Z) (Some 1%Z) 1 cdata) cdata in
  let mean' := match rescale with None => mean | Some r => rscaled r mean end in
  r1 ← np_set (rsl (Some 0%Z) (Some 1%Z) 1 tre) mean' tre;
  let i1 := np_fill (rsl (Some 0%Z) (Some 1%Z) 1 tre) 0 tim in
  let pos := rsl (Some 1%Z) (Some (Z.of_nat (K + 1))) 1 tre in
  r2 ← np_set pos (rscaled half (np_get (rsl (Some 2%Z) (Some k2) 2 cdata) cdata)) r1;
  i2 ← np_set pos (rscaled half (np_get (rsl (Some 3%Z) (Some k2) 2 cdata) cdata)) i1;
  let bad := rsl (Some (Z.of_nat (K + 1))) None 1 tre in
  Some (np_fill bad 0 r2, np_fill bad 0 i2).

(** scipy.fft.rfft / FFTW r2c: modes 0 .. N//2 of a real signal. *)
Definition rfft (N : nat) (g : list R) : list R * list R :=
  (map (fun k => rsum N (fun x => rat g x * cos (angle N (Z.of_nat k) x))) (seq 0 (N / 2 + 1)),
   map (fun k => rsum N (fun x => - (rat g x * sin (angle N (Z.of_nat k) x)))) (seq 0 (N / 2 + 1))).
(** FFTW c2r: unnormalised real signal of the Hermitian extension; for even N the last mode
    is its own conjugate. *)
Definition c2r (N : nat) (tre tim : list R) : list R :=
  map (fun x =>
    rat tre 0
    + rsum ((N - 1) / 2) (fun i => 2 * (rat tre (S i) * cos (angle N (Z.of_nat (S i)) x)
                                        - rat tim (S i) * sin (angle N (Z.of_nat (S i)) x)))
    + (if Nat.even N then rat tre (N / 2) * cos (angle N (Z.of_nat (N / 2)) x) else 0)) (seq 0 N).
(** scipy.fft.irfft: the same divided by N. *)
Definition irfft (N : nat) (tre tim : list R) : list R := map (Rmult (/ INR N)) (c2r N tre tim).

(** dedalus/core/transforms.py:516-521 and 551-557. *)
Definition real_forward (N M : nat) (gdata cdata : list R) : option (list R) :=
  unpack_rescale (Kmax N M) (/ INR N) (rfft N gdata).1 (rfft N gdata).2 cdata.
(** dedalus/core/transforms.py:523-535. *)
Definition real_backward_scipy (N M : nat) (cdata tre tim : list R) : option (list R) :=
  t ← repack_rescale (Kmax N M) (Some (INR N)) cdata tre tim; Some (irfft N t.1 t.2).
(** dedalus/core/transforms.py:559-565. *)
Definition real_backward_fftw (N M : nat) (cdata tre tim : list R) : option (list R) :=
  t ← repack_rescale (Kmax N M) None cdata tre tim; Some (c2r N t.1 t.2).

(** ** FFTPACK *)
(** scipy.fftpack.rfft: [y0, Re y1, Im y1, ..., (Re y_{N/2})]. *)
Definition fftpack_rfft (N : nat) (g : list R) : list R :=
  map (fun j => let k := ((j + 1) / 2)%nat in
                if decide (j = 0 \/ Nat.odd j = true)%nat
                then rsum N (fun x => rat g x * cos (angle N (Z.of_nat k) x))
                else rsum N (fun x => - (rat g x * sin (angle N (Z.of_nat k) x)))) (seq 0 N).
(** scipy.fftpack.irfft (inverse of the above). *)
Definition fftpack_irfft (N : nat) (t : list R) : list R :=
  map (fun x => / INR N *
    (rat t 0
     + rsum ((N - 1) / 2) (fun i => 2 * (rat t (2 * i + 1) * cos (angle N (Z.of_nat (S i)) x)
                                        - rat t (2 * i + 2) * sin (angle N (Z.of_nat (S i)) x)))
     + (if Nat.even N then rat t (N - 1) * cos (angle N (Z.of_nat (N / 2)) x) else 0))) (seq 0 N).

(** dedalus/core/transforms.py:431-447.  [FFTPACKRealFFT.forward]. *)
Definition fftpack_forward (N M : nat) (gdata cdata : list R) : option (list R) :=
  let K := Kmax N M in
  let temp := fftpack_rfft N gdata in
  let k2 := Z.of_nat (2 * (K + 1)) in
  c1 ← np_set (rsl (Some 0%Z) (Some 1%Z) 1 cdata)
              (rscaled (1 / INR N) (np_get (rsl (Some 0%Z) (Some 1%Z) 1 temp) temp)) cdata;
  let c2 := np_fill (rsl (Some 1%Z) (Some 2%Z) 1 cdata) 0 c1 in
  c3 ← np_set (rsl (Some 2%Z) (Some k2) 1 cdata)
              (rscaled (2 / INR N) (np_get (rsl (Some 1%Z) (Some (Z.of_nat (2 * (K + 1) - 1))) 1 temp) temp)) c2;
  Some (np_fill (rsl (Some k2) None 1 cdata) 0 c3).
(** dedalus/core/transforms.py:449-466.  [FFTPACKRealFFT.backward]. *)
Definition fftpack_backward (N M : nat) (cdata temp : list R) : option (list R) :=
  let K := Kmax N M in
  let k2 := Z.of_nat (2 * (K + 1)) in
  t1 ← np_set (rsl (Some 0%Z) (Some 1%Z) 1 temp)
              (rscaled (INR N) (np_get (rsl (Some 0%Z) (Some 1%Z) 1 cdata) cdata)) temp;
  t2 ← np_set (rsl (Some 1%Z) (Some (Z.of_nat (2 * (K + 1) - 1))) 1 temp)
              (rscaled (INR N / 2) (np_get (rsl (Some 2%Z) (Some k2) 1 cdata) cdata)) t1;
  Some (fftpack_irfft N (np_fill (rsl (Some (Z.of_nat (2 * (K + 1) - 1))) None 1 temp) 0 t2)).

(** ** Half-complex FFTW *)
(** FFTW R2HC: [r0, r1, ..., r_{N/2}, i_{(N+1)/2-1}, ..., i_1]. *)
Definition r2hc (N : nat) (g : list R) : list R :=
  map (fun j => if decide (j <= N / 2)%nat
                then rsum N (fun x => rat g x * cos (angle N (Z.of_nat j) x))
                else rsum N (fun x => - (rat g x * sin (angle N (Z.of_nat (N - j)) x)))) (seq 0 N).
(** FFTW HC2R: unnormalised inverse. *)
Definition hc2r (N : nat) (t : list R) : list R :=
  map (fun x =>
    rat t 0
    + rsum ((N - 1) / 2) (fun i => 2 * (rat t (S i) * cos (angle N (Z.of_nat (S i)) x)
                                        - rat t (N - S i) * sin (angle N (Z.of_nat (S i)) x)))
    + (if Nat.even N then rat t (N / 2) * cos (angle N (Z.of_nat (N / 2)) x) else 0)) (seq 0 N).

(** dedalus/core/transforms.py:581-597. *)
Definition hc_unpack (K : nat) (rescale : R) (temp cdata : list R) : option (list R) :=
  let k2 := Z.of_nat (2 * (K + 1)) in
  c1 ← np_set (rsl (Some 0%Z) (Some 1%Z) 1 cdata)
              (rscaled rescale (np_get (rsl (Some 0%Z) (Some 1%Z) 1 temp) temp)) cdata;
  let c2 := np_fill (rsl (Some 1%Z) (Some 2%Z) 1 cdata) 0 c1 in
  c3 ← np_set (rsl (Some 2%Z) (Some k2) 2 cdata)
       (rscaled (2 * rescale) (np_get (rsl (Some 1%Z) (Some (Z.of_nat (K + 1))) 1 temp) temp)) c2;
  c4 ← np_set (rsl (Some 3%Z) (Some k2) 2 cdata)
       (rscaled (2 * rescale) (np_get (rsl (Some (-1)%Z) (Some (- (Z.of_nat K + 1))%Z) (-1) temp) temp)) c3;
  Some (np_fill (rsl (Some k2) None 1 cdata) 0 c4).
(** dedalus/core/transforms.py:599-613. *)
Definition hc_repack (K : nat) (cdata temp : list R) : option (list R) :=
  let k2 := Z.of_nat (2 * (K + 1)) in
  t1 ← np_set (rsl (Some 0%Z) (Some 1%Z) 1 temp) (np_get (rsl (Some 0%Z) (Some 1%Z) 1 cdata) cdata) temp;
  t2 ← np_set (rsl (Some 1%Z) (Some (Z.of_nat (K + 1))) 1 temp)
       (rscaled (1 / 2) (np_get (rsl (Some 2%Z) (Some k2) 2 cdata) cdata)) t1;
  t3 ← np_set (rsl (Some (-1)%Z) (Some (- (Z.of_nat K + 1))%Z) (-1) temp)
       (rscaled (1 / 2) (np_get (rsl (Some 3%Z) (Some k2) 2 cdata) cdata)) t2;
  Some (np_fill (rsl (Some (Z.of_nat (K + 1))) (Some (- Z.of_nat K)%Z) 1 temp) 0 t3).
(** dedalus/core/transforms.py:615-621. *)
Definition hc_forward (N M : nat) (gdata cdata : list R) : option (list R) :=
  hc_unpack (Kmax N M) (/ INR N) (r2hc N gdata) cdata.
(** dedalus/core/transforms.py:623-629. *)
Definition hc_backward (N M : nat) (cdata temp : list R) : option (list R) :=
  t ← hc_repack (Kmax N M) cdata temp; Some (hc2r N t).

(** ** Real Fourier matrix transform *)
(** dedalus/core/transforms.py:380-384: wavenumber of slot [j]. *)
Definition rwavenumber (j : nat) : nat := (j / 2)%nat.
(** dedalus/core/transforms.py:396-402, 414-421: the shapes of the two interleaved
    assignments, for the array with [max(2, M)] slots; [None] is a [ValueError]. *)
Definition rmmt_shapes_ok (M : nat) : bool :=
  let M' := Nat.max 2 M in
  let nK := length (slice_indices None None 2 (2 * ((M - 1) / 2 + 1))) in
  let even := length (slice_indices (Some 0%Z) None 2 M') in
  let odd := length (slice_indices (Some 1%Z) None 2 M') in
  bool_decide ((nK = even \/ nK = 1) /\ (nK = odd \/ nK = 1) /\
               (2 * ((M - 1) / 2 + 1) = M' \/ M' = 1))%nat.
(** dedalus/core/transforms.py:391-407. *)
Definition rmmt_forward_entry (N M j x : nat) : R :=
  if decide (rwavenumber j <= Kmax N M)%nat then
    if decide (j = 0)%nat then 1 / INR N
    else if Nat.even j then 2 / INR N * cos (INR (rwavenumber j) * INR x / (INR N / 2 / PI))
    else - (2 / INR N) * sin (INR (rwavenumber j) * INR x / (INR N / 2 / PI))
  else 0.
(** dedalus/core/transforms.py:409-425. *)
Definition rmmt_backward_entry (N M x j : nat) : R :=
  if decide (rwavenumber j <= Kmax N M)%nat then
    if Nat.even j then cos (INR (rwavenumber j) * INR x / (INR N / 2 / PI))
    else - sin (INR (rwavenumber j) * INR x / (INR N / 2 / PI))
  else 0.
Definition rmmt_forward (N M : nat) (g : list R) : option (list R) :=
  if rmmt_shapes_ok M then Some (mat_apply_r (Nat.max 2 M) N (rmmt_forward_entry N M) g) else None.
Definition rmmt_backward (N M : nat) (c : list R) : option (list R) :=
  if rmmt_shapes_ok M then Some (mat_apply_r N (Nat.max 2 M) (rmmt_backward_entry N M) c) else None.

(** ** Cosine and Chebyshev *)
(** dedalus/core/transforms.py:666-671. *)
Definition KmaxC (N M : nat) : nat := Nat.min (N - 1) (M - 1).

(** dedalus/core/transforms.py:726-735 with the scaling factors of 718-724. *)
Definition dct_resize_forward (K KM : nat) (rz rp : R) (data_in data_out : list R) : option (list R) :=
  d1 ← np_set (rsl (Some 0%Z) (Some 1%Z) 1 data_out)
       (rscaled rz (np_get (rsl (Some 0%Z) (Some 1%Z) 1 data_in) data_in)) data_out;
  if decide (0 < K)%nat then
    d2 ← np_set (rsl (Some 1%Z) (Some (Z.of_nat (K + 1))) 1 data_out)
         (rscaled rp (np_get (rsl (Some 1%Z) (Some (Z.of_nat (K + 1))) 1 data_in) data_in)) d1;
    if decide (K < KM)%nat then Some (np_fill (rsl (Some (Z.of_nat (K + 1))) None 1 data_out) 0 d2)
    else Some d2
  else Some d1.
(** dedalus/core/transforms.py:737-746: identical up to scaling, with [KN]. *)
Definition dct_resize_backward := dct_resize_forward.

(** scipy.fft.dct type 2 / FFTW REDFT10. *)
Definition dct2 (N : nat) (g : list R) : list R :=
  map (fun k => rsum N (fun x => 2 * (rat g x * cos (PI * INR k * (2 * INR x + 1) / (2 * INR N))))) (seq 0 N).
(** scipy.fft.dct type 3 / FFTW REDFT01. *)
Definition dct3 (N : nat) (t : list R) : list R :=
  map (fun x => rat t 0 + rsum (N - 1) (fun i => 2 * (rat t (S i) * cos (PI * INR (S i) * (2 * INR x + 1) / (2 * INR N)))))
      (seq 0 N).

(** dedalus/core/transforms.py:844-851 ([_resize_rescale_forward] of FastChebyshevTransform,
    a = b = -1/2): DCT resize, then the odd modes change sign. *)
Definition flip_odd (K : nat) (x : list R) : option (list R) :=
  if decide (0 < K)%nat then
    let odd := rsl (Some 1%Z) (Some (Z.of_nat (K + 1))) 2 x in
    np_set odd (rscaled (-1) (np_get odd x)) x
  else Some x.
(** dedalus/core/transforms.py:801-835, 844-851, 753-758, 784-790. *)
Definition cheb_forward (N M : nat) (gdata cdata : list R) : option (list R) :=
  let K := KmaxC N M in
  d ← dct_resize_forward K (M - 1) (1 / INR N / 2 * R_sqrt.sqrt PI) (1 / INR N * R_sqrt.sqrt (PI / 2)) (dct2 N gdata) cdata;
  flip_odd K d.
(** dedalus/core/transforms.py:853-860, 760-769, 792-798; [temp]: uninitialised (scipy) or the
    plan's reused buffer (FFTW).  The input's odd modes are flipped in place. *)
Definition cheb_backward (N M : nat) (cdata temp : list R) : option (list R) :=
  let K := KmaxC N M in
  c ← flip_odd K cdata;
  t ← dct_resize_backward K (N - 1) (1 / R_sqrt.sqrt PI) (1 / 2 / R_sqrt.sqrt (PI / 2)) c temp;
  Some (dct3 N t).
