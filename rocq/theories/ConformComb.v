(** * Running the model of combination.py on the repository's own fixtures (a test of the model, not a proof).

    The linear algebra interface is instantiated by naive binary64 lists; the optimiser is a small coordinate
    ascent.  The reference values are the ones hard-coded in tests/test_from_ewmas.py and stored in
    tests/resources/{weights,Sigma}_combinator.csv.  The runs are evaluated while the file is compiled ([Eval vm_compute]); each
    [Example] only states that the run printed [true]. *)

From Coq Require Import Floats String List Bool ZArith.
From Verif Require Import Num Py Ewma F64 Fixtures Conform Combination FromEwmas.
Import ListNotations.
Local Open Scope float_scope.

#[local] Existing Instance F64.

(** ** Lists of floats as vectors, lists of rows as matrices *)
Fixpoint fmap2 (f : float -> float -> float) (a b : list float) : list float :=
  match a, b with x :: a, y :: b => f x y :: fmap2 f a b | _, _ => [] end.
Definition fsum (l : list float) : float := fold_left PrimFloat.add l 0.
Definition dot (a b : list float) : float := fsum (fmap2 PrimFloat.mul a b).
Definition vadd := fmap2 PrimFloat.add.
Definition vsub := fmap2 PrimFloat.sub.
Definition vscale (c : float) := map (PrimFloat.mul c).
Definition lmat := list (list float).
Definition madd (A B : lmat) : lmat := match A, B with
  | [], _ => B | _, [] => A | _, _ => map2 vadd A B end.
Definition vadd0 (a b : list float) := match a, b with [], _ => b | _, [] => a | _, _ => vadd a b end.
Definition tr (A : lmat) : lmat :=
  match A with [] => [] | r :: _ => map (fun j => map (fun row => nth j row 0) A) (seq 0 (length r)) end.
Definition mulv (A : lmat) (v : list float) : list float := map (fun r => dot r v) A.
Definition mmul (A B : lmat) : lmat := let Bt := tr B in map (fun r => map (dot r) Bt) A.

(** Gauss-Jordan elimination with partial pivoting on the augmented matrix. *)
Definition unit_row (n i : nat) : list float := map (fun j => if Nat.eqb i j then 1 else 0) (seq 0 n).
Fixpoint pivot (j : nat) (best : list float) (rest : lmat) (out : lmat) : list float * lmat :=
  match rest with
  | [] => (best, out)
  | r :: rest =>
      if abs (nth j best 0) <? abs (nth j r 0) then pivot j r rest (out ++ [best])
      else pivot j best rest (out ++ [r])
  end.
Fixpoint gauss (fuel j : nat) (done rest : lmat) : option lmat :=
  match fuel with
  | O => Some done
  | S fuel =>
      match rest with
      | [] => Some done
      | r :: rest =>
          let '(p, rest) := pivot j r rest [] in
          let d := nth j p 0 in
          if d =? 0 then None else
          let p := map (fun x => x / d) p in
          let elim r := vsub r (vscale (nth j r 0) p) in
          gauss fuel (S j) (map elim done ++ [p]) (map elim rest)
      end
  end.
Definition finv (A : lmat) : option lmat :=
  let n := length A in
  match gauss n 0 [] (map2 (fun r i => r ++ unit_row n i) A (seq 0 n)) with
  | Some B => Some (map (skipn n) B)
  | None => None
  end.

(** Cholesky, row by row. *)
Fixpoint chol_row (a : list float) (Ls : lmat) (acc : list float) (j : nat) : option (list float) :=
  match Ls with
  | [] => let d := nth j a 0 - dot acc acc in if 0 <? d then Some (acc ++ [sqrt d]) else None
  | Lj :: Ls => chol_row a Ls (acc ++ [(nth j a 0 - dot acc Lj) / nth j Lj 0]) (S j)
  end.
Fixpoint chol_rows (A : lmat) (Ls : lmat) : option lmat :=
  match A with
  | [] => Some Ls
  | a :: A => match chol_row a Ls [] 0 with Some r => chol_rows A (Ls ++ [r]) | None => None end
  end.
Definition fchol (A : lmat) : option lmat :=
  let n := length A in
  match chol_rows A [] with
  | Some L => Some (map (fun r => r ++ repeat 0 (n - length r)) L)
  | None => None
  end.

Definition FLA (n : nat) : LinAlg := {|
  l_num := float; l_vec := list float; l_mat := lmat; l_matB := lmat; l_matK := lmat;
  l_vec0 := repeat 0 n;
  l_inv := finv; l_chol := fchol;
  l_tmulv := fun L v => mulv (tr L) v;
  l_vsub := vsub;
  l_diag := fun A => map2 (fun r i => nth i r 0) A (seq 0 (length A));
  l_colstack := tr;
  l_gram := fun B => mmul (tr B) B;
  l_zeroK := []; l_addK := madd; l_cholK := fchol;
  l_zeroM := []; l_addM := madd; l_scaleM := fun c => map (vscale c);
  l_zeroV := []; l_addV := vadd0; l_scaleV := vscale;
  l_invT_mulv := fun L v => match finv (tr L) with Some A => Some (mulv A v) | None => None end;
  l_inv_sq := fun L => finv (mmul L (tr L)) |}.

(** ** The optimiser: sum(log(A w)) - 0.5 * ||P_chol.T w||^2 on the simplex (combination.py:81-86).
    Repeatedly maximise along e_i - e_j by clipped Newton steps. *)
Definition prob3 := (lmat * lmat)%type.          (* columns of A, P_chol *)
Definition grad (p : prob3) (w : list float) : list float :=
  let At := tr (fst p) in
  let s := map (fun row => 1 / dot row w) At in
  let Pw := mulv (snd p) (mulv (tr (snd p)) w) in
  vsub (map (fun col => dot col s) (fst p)) Pw.
Definition curv (p : prob3) (w d : list float) : float :=
  let At := tr (fst p) in
  let Pd := mulv (tr (snd p)) d in
  fsum (map (fun row => let q := dot row d / dot row w in q * q) At) + dot Pd Pd.
Definition dir (k i j : nat) : list float := vsub (unit_row k i) (unit_row k j).
Definition step (p : prob3) (w : list float) (ij : nat * nat) : list float :=
  let '(i, j) := ij in
  let d := dir (length w) i j in
  let t := dot (grad p w) d / curv p w d in
  let t := fmaximum (- nth i w 0) (fminimum (nth j w 0) t) in
  vadd w (vscale t d).
Definition opt3 (sweeps : nat) (p : prob3) : list float :=
  Nat.iter sweeps (fun w => fold_left (step p) [(0, 1); (0, 2); (1, 2)]%nat w) [1/3; 1/3; 1/3].

(** ** The runs *)
Definition pairs3 : list (option float * option float) :=
  [(Some 10, Some 10); (Some 21, Some 21); (Some 21, Some 63)].
Definition label3 (p : option float * option float) : string :=
  match p with
  | (Some a, Some b) => if (a =? 10)%float then "10-10" else if (b =? 21)%float then "21-21" else "21-63"
  | _ => "none"
  end%string.

Definition comb_of (n : nat) (r : frame time) (mpc : nat) (clip : option float) (mean : bool) :=
  @from_ewmas F64 (FLA n) label3 (fun f => fvals f) (fun v => v) r pairs3 20 mpc clip mean.

Definition the_solver (n : nat) (sweeps : nat) : solver (FLA n) := fun _ p => Some (opt3 sweeps p).

Definition last_weights {n} (c : res (comb (FLA n))) (w : option nat) (ts : option (list time)) : list float :=
  match c with
  | Ok c => match solve (FLA n) (the_solver n 40) c w ts with
            | ([Some r], None) => r_weights (FLA n) r
            | _ => []
            end
  | Raise _ => []
  end.
Definition last_sigma {n} (slv : solver (FLA n)) (c : res (comb (FLA n))) (w : option nat) (ts : option (list time)) : lmat :=
  match c with
  | Ok c => match solve (FLA n) slv c w ts with
            | ([Some r], None) => r_cov (FLA n) r
            | _ => []
            end
  | Raise _ => []
  end.
Definition near (atol : float) (a b : list float) : bool :=
  Nat.eqb (length a) (length b) && forallb (fun q => abs (fst q - snd q) <=? atol) (combine a b).

(** tests/test_from_sigmas.py, test_combine_all: three assets, clip_at=4.2, window=None. *)
Definition comb3 := Eval vm_compute in comb_of 3 returns3 20 (Some 4.2) false.
Definition conform_comb_weights_run : bool := Eval vm_compute in
  near 1e-6 (last_weights comb3 None None)
       [1.5602479078362184e-09; 5.403284965636712e-09; 0.9999999917229995].
Example conform_comb_weights : conform_comb_weights_run = true.
Proof. reflexivity. Qed.
(** With the stored weights the model reproduces the stored covariance. *)
Definition conform_comb_sigma_run : bool := Eval vm_compute in
  all_close 1e-10
    (last_sigma (fun _ _ => Some [1.5602479078362184e-09; 5.403284965636712e-09; 0.9999999917229995])
                comb3 None None) ref_combinator.
Example conform_comb_sigma : conform_comb_sigma_run = true.
Proof. reflexivity. Qed.

(** tests/test_from_ewmas.py: 20 assets, window=10, the result at the last date 2018-04-11. *)
Definition returns20f := mk (fcols returns_nan) returns20.
Definition conform_ewmas_clip_run : bool := Eval vm_compute in
  near 1e-5 (last_weights (comb_of 20 returns20f 20 (Some 4.2) false) (Some 10%nat) (Some [318%Z]))
       [0.060104; 0.205062; 0.734834].
Example conform_ewmas_clip : conform_ewmas_clip_run = true.
Proof. reflexivity. Qed.
Definition conform_ewmas_mean_run : bool := Eval vm_compute in
  near 1e-5 (last_weights (comb_of 20 returns20f 21 (Some 4.2) true) (Some 10%nat) (Some [318%Z]))
       [0.089445; 0.038577; 0.871978].
Example conform_ewmas_mean : conform_ewmas_mean_run = true.
Proof. reflexivity. Qed.
Definition conform_ewmas_noclip_run : bool := Eval vm_compute in
  near 1e-5 (last_weights (comb_of 20 returns20f 20 None false) (Some 10%nat) (Some [318%Z]))
       [0.167476; 0.016157; 0.816367].
Example conform_ewmas_noclip : conform_ewmas_noclip_run = true.
Proof. reflexivity. Qed.
