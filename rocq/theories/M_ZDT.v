(** * Model of the ZDT problems: /repo/pymoo/problems/multi/zdt.py, one row of X at a time, in exact real arithmetic.  anp.power(v, 0.5) is the square root, anp.power(v, 0.25) the fourth root
    (the arguments are not negative inside the bounds). *)
From Coq Require Import Reals List.
From Verif Require Import ListAux M_NSGA3R.
Import ListNotations.
Local Open Scope R_scope.

(** np.linspace(a, b, n) *)
Definition linspace (a b : R) (n : nat) : list R :=
  match n with O => [] | S O => [a] | _ => map (fun i => a + INR i * ((b - a) / INR (n - 1))) (seq 0 n) end.
Definition hd0 (x : list R) : R := nth 0 x 0.

(** lines 19-34 *)
Definition zdt1 (n_var : nat) (x : list R) : list R :=
  let f1 := hd0 x in
  let g := 1 + 9 / (INR n_var - 1) * rsum (tl x) in
  [f1; g * (1 - sqrt (f1 / g))].
Definition zdt1_front (n : nat) : list (list R) := map (fun x => [x; 1 - sqrt x]) (linspace 0 1 n).
(** lines 37-50 *)
Definition zdt2 (n_var : nat) (x : list R) : list R :=
  let f1 := hd0 x in
  let c := rsum (tl x) in
  let g := 1 + 9 * c / (INR n_var - 1) in
  [f1; g * (1 - (f1 * 1 / g)^2)].
Definition zdt2_front (n : nat) : list (list R) := map (fun x => [x; 1 - x^2]) (linspace 0 1 n).
(** lines 53-86 *)
Definition zdt3 (n_var : nat) (x : list R) : list R :=
  let f1 := hd0 x in
  let c := rsum (tl x) in
  let g := 1 + 9 * c / (INR n_var - 1) in
  [f1; g * (1 - sqrt (f1 * 1 / g) - f1 * 1 / g * sin (10 * PI * f1))].
Definition zdt3_regions : list (R * R) :=
  [(0, 830015349/10000000000); (182228780/1000000000, 2577623634/10000000000); (4093136748/10000000000, 4538821041/10000000000);
   (6183967944/10000000000, 6525117038/10000000000); (8233317983/10000000000, 8518328654/10000000000)].
Definition zdt3_front (n : nat) : list (list R) :=
  flat_map (fun r => map (fun x => [x; 1 - sqrt x - x * sin (10 * PI * x)]) (linspace (fst r) (snd r) (n / 5))) zdt3_regions.
(** lines 89-115; bounds: [0, 1] for the first variable, [-5, 5] for the others *)
Definition zdt4_dom (n_var : nat) (x : list R) : Prop := length x = n_var /\ 0 <= hd0 x <= 1 /\ Forall (fun v => -5 <= v <= 5) (tl x).
Definition zdt4 (n_var : nat) (x : list R) : list R :=
  let f1 := hd0 x in
  let g := fold_left (fun g xi => g + (xi * xi - 10 * cos (4 * PI * xi))) (tl x) (1 + 10 * (INR n_var - 1)) in
  let h := 1 - sqrt (f1 / g) in
  [f1; g * h].
Definition zdt4_front (n : nat) : list (list R) := map (fun x => [x; 1 - sqrt x]) (linspace 0 1 n).
(** lines 118-152; the declared variables are floats between 0 and 1 ([vtype=float]); [normalize v lo hi] = (v - lo) / (hi - lo) *)
Definition zdt5_u (m n : nat) (x : list R) : list R := rsum (firstn 30 x) :: map (fun i => rsum (firstn n (skipn (30 + i * n) x))) (seq 0 (m - 1)).
Definition zdt5_v (n : nat) (u : R) : R := (2 + u) * (if Rlt_dec u (INR n) then 1 else 0) + 1 * (if Req_EM_T u (INR n) then 1 else 0).
Definition zdt5_n_var (m n : nat) : nat := (30 + n * (m - 1))%nat.
Definition normal (v lo hi : R) : R := (v - lo) / (hi - lo).
Definition zdt5 (normalize : bool) (m n : nat) (x : list R) : list R :=
  let u := zdt5_u m n x in
  let g := rsum (map (zdt5_v n) (tl u)) in
  let f1 := 1 + hd0 u in
  let f2 := g * (1 / f1) in
  let mm := INR m - 1 in
  if normalize then [normal f1 1 31; normal f2 (mm * 1 / 31) mm] else [f1; f2].
(** [normalize(pf)]: the bounds are the least and largest values of each column of the front *)
Definition lmin (l : list R) : R := fold_right Rmin (hd 0 l) l.
Definition lmax (l : list R) : R := fold_right Rmax (hd 0 l) l.
Definition zdt5_front (normalize : bool) (m n_points : nat) : list (list R) :=
  let xs := map (fun t => 1 + t * 30) (linspace 0 1 n_points) in
  let ys := map (fun x => (INR m - 1) / x) xs in
  if normalize then map (fun x => [normal x (lmin xs) (lmax xs); normal ((INR m - 1) / x) (lmin ys) (lmax ys)]) xs
  else map (fun x => [x; (INR m - 1) / x]) xs.
(** lines 155-170 *)
Definition zdt6_f1 (t : R) : R := 1 - exp (-4 * t) * (sin (6 * PI * t))^6.
Definition zdt6 (n_var : nat) (x : list R) : list R :=
  let f1 := zdt6_f1 (hd0 x) in
  let g := 1 + 9 * sqrt (sqrt (rsum (tl x) / (INR n_var - 1))) in
  [f1; g * (1 - (f1 / g)^2)].
Definition zdt6_front (n : nat) : list (list R) := map (fun x => [x; 1 - x^2]) (linspace (2807753191/10000000000) 1 n).
