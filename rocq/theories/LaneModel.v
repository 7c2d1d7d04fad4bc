(** Model of the vector instruction sequences that rotate the lanes of a register
    at the first and last row of a folded slice, and of those that add the two
    components of a complex number. A register is a function from the lane to its
    content, a double being a pair of 32-bit words where it is cast to words. The
    semantics of the intrinsics is that of the Intel manual. *)
From Coq Require Import List Arith PArith NArith.
Import ListNotations.

(** The instruction sets chosen by the preprocessor: __AVX512F__, __AVX2__, __AVX__,
    none. *)
Inductive isa := AVX512 | AVX2 | AVX | SSE.

(** ** Intrinsics *)
Section Intrinsics.
Context {A : Type}.
Definition reg := nat -> A.

(** _mm512_permutexvar_pd, _ps; _mm256_permutevar8x32_ps, _epi32 *)
Definition permutexvar (idx : list nat) (r : reg) : reg := fun i => r (nth i idx 0).
(** bit i of the immediate *)
Definition bit (imm : N) (i : nat) : nat := if N.testbit imm (N.of_nat i) then 1 else 0.
(** two bits at position 2i *)
Definition field2 (imm : N) (i : nat) : nat := bit imm (2 * i) + 2 * bit imm (2 * i + 1).
(** _mm512_permute_pd, _mm256_permute_pd: inside each pair of lanes *)
Definition permute_pd (imm : N) (r : reg) : reg := fun i => r (2 * (i / 2) + bit imm i).
(** _mm512_permute_ps, _mm256_permute_ps, _mm512_shuffle_epi32: inside each four lanes *)
Definition permute_ps (imm : N) (r : reg) : reg := fun i => r (4 * (i / 4) + field2 imm (i mod 4)).
(** _mm256_permute2f128: h lanes in each half *)
Definition permute2f128 (h : nat) (imm : N) (a b : reg) : reg := fun i =>
  let sel := if i <? h then field2 imm 0 else field2 imm 2 in
  (if sel <? 2 then a else b) (h * (sel mod 2) + i mod h).
(** _mm256_blend *)
Definition blend (imm : N) (a b : reg) : reg := fun i => if N.testbit imm (N.of_nat i) then b i else a i.
(** _mm_shuffle_pd, _mm_shuffle_ps *)
Definition shuffle_pd (imm : N) (a b : reg) : reg := fun i =>
  match i with 0 => a (bit imm 0) | _ => b (bit imm 1) end.
Definition shuffle_ps (imm : N) (a b : reg) : reg := fun i =>
  if i <? 2 then a (field2 imm i) else b (field2 imm i).
End Intrinsics.

(** _mm256_castpd_si256 and back *)
Definition castpd {W} (r : nat -> W * W) : nat -> W := fun j => if Nat.even j then fst (r (j / 2)) else snd (r (j / 2)).
Definition castsi {W} (r : nat -> W) : nat -> W * W := fun i => (r (2 * i), r (2 * i + 1)).

(** Tables shfRg and shfLf. *)
(** propThetaXeon.h:80-81, :359-360; propPaxXeon.h:84-85, :289-290 *)
Definition shfRg8 := [7; 0; 1; 2; 3; 4; 5; 6].
Definition shfLf8 := [1; 2; 3; 4; 5; 6; 7; 0].
Definition shfRg16 := [15; 0; 1; 2; 3; 4; 5; 6; 7; 8; 9; 10; 11; 12; 13; 14].
Definition shfLf16 := [1; 2; 3; 4; 5; 6; 7; 8; 9; 10; 11; 12; 13; 14; 15; 0].
(** propXeon.h:117-118, :498-499; propNaxXeon.h:100-101, :309-310 *)
Definition shfRg8c := [6; 7; 0; 1; 2; 3; 4; 5].
Definition shfLf8c := [2; 3; 4; 5; 6; 7; 0; 1].
Definition shfRg16c := [14; 15; 0; 1; 2; 3; 4; 5; 6; 7; 8; 9; 10; 11; 12; 13].
Definition shfLf16c := [2; 3; 4; 5; 6; 7; 8; 9; 10; 11; 12; 13; 14; 15; 0; 1].

(** ** Real fields, double: lanes are doubles, seen as pairs of words *)
(** propThetaXeon.h:178-189 (also propThetaModXeon.h:121-130, propPaxXeon.h:158-169,
    gravityPaxionXeon.h:383-394) *)
Definition yMinus_real_pd {W} (i : isa) (x : nat -> W * W) : nat -> W * W :=
  match i with
  | AVX512 => permutexvar shfRg8 x
  | AVX2 => castsi (permutexvar [6; 7; 0; 1; 2; 3; 4; 5] (castpd x))
  | AVX => let acu := permute_pd 0x5 x in
           let vel := permute2f128 2 0x1 acu acu in
           blend 0x5 acu vel
  | SSE => shuffle_pd 0x1 x x
  end.
(** propThetaXeon.h:199-210 *)
Definition yPlus_real_pd {W} (i : isa) (x : nat -> W * W) : nat -> W * W :=
  match i with
  | AVX512 => permutexvar shfLf8 x
  | AVX2 => castsi (permutexvar [2; 3; 4; 5; 6; 7; 0; 1] (castpd x))
  | AVX => let acu := permute_pd 0x5 x in
           let vel := permute2f128 2 0x1 acu acu in
           blend 0xA acu vel
  | SSE => shuffle_pd 0x1 x x
  end.
(** ** Real fields, float *)
(** propThetaXeon.h:453-464 *)
Definition yMinus_real_ps {A} (i : isa) (x : nat -> A) : nat -> A :=
  match i with
  | AVX512 => permutexvar shfRg16 x
  | AVX2 => permutexvar [7; 0; 1; 2; 3; 4; 5; 6] x
  | AVX => let tmp := permute_ps 0x93 x in
           let vel := permute2f128 4 0x1 tmp tmp in
           blend 0x11 tmp vel
  | SSE => shuffle_ps 0x93 x x
  end.
(** propThetaXeon.h:474-485 *)
Definition yPlus_real_ps {A} (i : isa) (x : nat -> A) : nat -> A :=
  match i with
  | AVX512 => permutexvar shfLf16 x
  | AVX2 => permutexvar [1; 2; 3; 4; 5; 6; 7; 0] x
  | AVX => let tmp := permute_ps 0x39 x in
           let vel := permute2f128 4 0x1 tmp tmp in
           blend 0x88 tmp vel
  | SSE => shuffle_ps 0x39 x x
  end.
(** ** Complex fields: lanes 2l and 2l+1 are the parts of the number l *)
(** propXeon.h:195-202 and :211-218, :1170-1177 and :1186-1193; propNaxXeon.h:170-177
    and :186-193; energyXeon.cpp:219-226 and :237-244 *)
Definition yMinus_cplx_pd {A} (i : isa) (x : nat -> A) : nat -> A :=
  match i with
  | AVX512 => permutexvar shfRg8c x
  | AVX2 | AVX => permute2f128 2 0x1 x x
  | SSE => x
  end.
Definition yPlus_cplx_pd {A} (i : isa) (x : nat -> A) : nat -> A :=
  match i with
  | AVX512 => permutexvar shfLf8c x
  | AVX2 | AVX => permute2f128 2 0x1 x x
  | SSE => x
  end.
(** propXeon.h:576-587 and :596-607; propNaxXeon.h:378-389 and :398-409 *)
Definition yMinus_cplx_ps {A} (i : isa) (x : nat -> A) : nat -> A :=
  match i with
  | AVX512 => permutexvar shfRg16c x
  | AVX2 => permutexvar [6; 7; 0; 1; 2; 3; 4; 5] x
  | AVX => let mMx := permute_ps 0x4E x in
           let mPx := permute2f128 4 0x1 mMx mMx in
           blend 0x33 mMx mPx
  | SSE => shuffle_ps 0x4E x x
  end.
Definition yPlus_cplx_ps {A} (i : isa) (x : nat -> A) : nat -> A :=
  match i with
  | AVX512 => permutexvar shfLf16c x
  | AVX2 => permutexvar [2; 3; 4; 5; 6; 7; 0; 1] x
  | AVX => let mMx := permute_ps 0x4E x in
           let mPx := permute2f128 4 0x1 mMx mMx in
           blend 0xCC mMx mPx
  | SSE => shuffle_ps 0x4E x x
  end.

(** Number of real or complex lanes in a register: the macros step and cStep. *)
Definition lanes_real_pd (i : isa) := match i with AVX512 => 8 | AVX2 | AVX => 4 | SSE => 2 end.
Definition lanes_real_ps (i : isa) := match i with AVX512 => 16 | AVX2 | AVX => 8 | SSE => 4 end.
Definition lanes_cplx_pd (i : isa) := match i with AVX512 => 4 | AVX2 | AVX => 2 | SSE => 1 end.
Definition lanes_cplx_ps (i : isa) := match i with AVX512 => 8 | AVX2 | AVX => 4 | SSE => 2 end.

(** ** The string finder *)
(** stringXeon.cpp:574-589 *)
Definition string_yPlus_pd {A} (i : isa) (x : nat -> A) : nat -> A :=
  match i with
  | AVX512 => permute_pd 0x39 x
  | AVX2 | AVX => permute2f128 2 0x1 x x
  | SSE => x
  end.
(** stringXeon.cpp:851-873 *)
Definition string_yPlus_ps {A} (i : isa) (x : nat -> A) : nat -> A :=
  match i with
  | AVX512 => permutexvar [2; 3; 4; 5; 6; 7; 8; 9; 10; 11; 12; 13; 14; 15; 0; 1] x
  | AVX2 => permutexvar [2; 3; 4; 5; 6; 7; 0; 1] x
  | AVX => let tmp := permute_ps 0x4E x in blend 0xCC tmp (permute2f128 4 0x1 tmp tmp)
  | SSE => shuffle_ps 0x4E x x
  end.

(** ** Energies *)
(** energyThetaXeon.cpp:130-141: [mPy] is the register loaded at line 129. *)
Definition energyTheta_yMinus_pd {W} (add : W * W -> W * W -> W * W) (i : isa) (x mPy : nat -> W * W) : nat -> W * W :=
  match i with
  | AVX512 => fun k => add (permutexvar shfRg8 x k) (mPy k)
  | _ => yMinus_real_pd i x
  end.
(** energyPaxionXeon.cpp:337-355: registers mMy and mMyp, from the fields m and v at
    idxMy; [old] is the content of mMyp before. The AVX512 line assigns mPyp. *)
Definition energyPaxion_yMinus_ps {A} (i : isa) (m v old : nat -> A) : (nat -> A) * (nat -> A) :=
  (yMinus_real_ps i m,
   match i with
   | AVX512 => old
   | AVX => let mel := permute_ps 0x5 v in
            let vel := permute2f128 4 0x1 mel mel in
            blend 0x11 mel vel
   | _ => yMinus_real_ps i v
   end).

(** ** Sum of the two components of each complex number *)
Section Sum.
Context {A : Type} (add : A -> A -> A).
Definition addr (a b : nat -> A) : nat -> A := fun i => add (a i) (b i).
(** propXeon.h:243-249: the AVX512 branch shuffles words with _MM_PERM_BADC = 0x4E,
    that is whole doubles inside each pair. *)
Definition norm_pd (i : isa) (x : nat -> A) : nat -> A :=
  match i with
  | AVX512 => addr (permute_pd 0x55 x) x
  | AVX2 | AVX => addr (permute_pd 0x5 x) x
  | SSE => addr (shuffle_pd 0x1 x x) x
  end.
(** propXeon.h:633-637 *)
Definition norm_ps (i : isa) (x : nat -> A) : nat -> A :=
  match i with
  | AVX512 | AVX2 | AVX => addr (permute_ps 0xB1 x) x
  | SSE => addr (shuffle_ps 0xB1 x x) x
  end.
(** propXeon.h:334-347 (V_EVOL_THETA): scalar products with the field. *)
Definition proj_theta_pd (i : isa) (x : nat -> A) : nat -> A :=
  match i with
  | AVX512 | AVX2 | AVX => addr (permute_pd 0x55 x) x
  | SSE => addr (shuffle_pd 0x1 x x) x
  end.
(** propXeon.h:373-377, the scalar product M.V of V_DAMP_RHO (also :417-421, the
    projection of V_EVOL_RHO): with AVX512 the macro __AVX__ is defined too. *)
Definition damp_mv_pd (i : isa) (x : nat -> A) : nat -> A :=
  match i with
  | AVX512 | AVX2 | AVX => addr (permute_pd 0x5 x) x
  | SSE => addr (shuffle_pd 0x1 x x) x
  end.
(** propXeon.h:382-386, the scalar product M.A of V_DAMP_RHO. *)
Definition damp_ma_pd (i : isa) (x : nat -> A) : nat -> A :=
  match i with
  | AVX512 | AVX2 | AVX => addr (permute_pd 0x1 x) x
  | SSE => addr (shuffle_pd 0x1 x x) x
  end.
End Sum.
(** _mm512_shuffle_epi32 with _MM_PERM_BADC on doubles seen as pairs of words
    (propXeon.h:244, :1219; energyXeon.cpp; stringXeon.cpp:42-108). *)
Definition shuffle_badc {W} (x : nat -> W * W) : nat -> W * W := castsi (permute_ps 0x4E (castpd x)).
