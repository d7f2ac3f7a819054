(** * Model of /repo/pymoo/algorithms/soo/nonconvex/ga_niching.py: the epsilon-clearing survival of NicheGA and its optimum *)
From Coq Require Import List Arith Bool ZArith QArith.
From Verif Require Import ListAux M_Roulette M_Norm.
Import ListNotations.
Local Open Scope nat_scope.

(** an individual: variables, the one objective, constraint violation, and the attributes "iter", "rank", "niche" (None: never set).
    Numbers are rationals: every finite double is one *)
Record nini := { ni_x : list Q; ni_f : Q; ni_cv : Q; ni_iter : option nat; ni_rank : option nat; ni_niche : option nat }.
Definition nini0 : nini := {| ni_x := []; ni_f := 0%Q; ni_cv := 0%Q; ni_iter := None; ni_rank := None; ni_niche := None |}.
Definition set_rank (r : nat) (a : nini) : nini := {| ni_x := ni_x a; ni_f := ni_f a; ni_cv := ni_cv a; ni_iter := ni_iter a; ni_rank := Some r; ni_niche := ni_niche a |}.
Definition set_round (it rk : nat) (nc : option nat) (a : nini) : nini :=
  {| ni_x := ni_x a; ni_f := ni_f a; ni_cv := ni_cv a; ni_iter := Some it; ni_rank := Some rk; ni_niche := nc |}.

(** ga.py:29-34 [FitnessSurvival._do] with n_survive = len(pop): np.lexsort([F, cv]) is a stable sort by cv, ties by F; the attribute "rank"
    becomes the position in that order (np.argsort of a permutation is its inverse) *)
Definition ni_le (a b : nini) : bool :=
  if negb (Qle_bool (ni_cv b) (ni_cv a)) then true else if negb (Qle_bool (ni_cv a) (ni_cv b)) then false else Qle_bool (ni_f a) (ni_f b).
Fixpoint ni_insert (a : nini) (l : list nini) : list nini := match l with [] => [a] | b :: l => if ni_le a b then a :: b :: l else b :: ni_insert a l end.
Definition ni_sort (l : list nini) : list nini := fold_right ni_insert [] l.
Definition fitness_survival (pop : list nini) : list nini := map2 set_rank (seq 0 (length pop)) (ni_sort pop).

(** ga_niching.py:116-166, the local variables of [EpsilonClearingSurvival._do]: the sorted population (whose members are changed in place),
    the clearing, [iter], [rank] and [iter_one] *)
Record nst := { ns_pop : list nini; ns_c : clr; ns_it : nat; ns_rk : nat; ns_one : option (list nat) }.
Definition ns_init (pop : list nini) : nst := {| ns_pop := pop; ns_c := cl_init (length pop); ns_it := 1; ns_rk := 1; ns_one := None |}.
Definition iter_is_one (a : nini) : bool := match ni_iter a with Some 1 => true | _ => false end.

Section Survival.
  (** [D p q]: the normalised distance of two members of the sorted population (any matrix; the code computes it in doubles, lines 119-124).
      [eps], [nmax]: the arguments epsilon and n_max_each_iter *)
  Variables (D : nat -> nat -> Q) (eps : Q) (nmax : option nat).
  (** clearing.py:72: dist_to_other < epsilon *)
  Definition ni_close (p q : nat) : bool := negb (Qle_bool eps (D p q)).
  (** ga_niching.py:138-151 *)
  Definition ni_reset_now (st : nst) : bool :=
    match cl_remaining (length (ns_pop st)) (ns_c st) with
    | [] => true
    | _ => match nmax with Some m => m <? ns_rk st | None => false end
    end.
  Definition ni_refresh (st : nst) : nst :=
    if ni_reset_now st then
      {| ns_pop := ns_pop st; ns_c := cl_reset (length (ns_pop st)) (ns_c st); ns_it := S (ns_it st); ns_rk := 1;
         ns_one := match ns_one st with
                   | None => Some (where_ (fun p => iter_is_one (nth p (ns_pop st) nini0)) (length (ns_pop st)))
                   | Some one => Some one
                   end |}
    else st.
  (** ga_niching.py:153-169; None: an exception ([remaining[0]] or argmin of something empty) *)
  Definition ni_pick (st : nst) : option nst :=
    match cl_remaining (length (ns_pop st)) (ns_c st) with
    | [] => None
    | k :: _ =>
        let niche :=
          if ns_it st =? 1 then Some (Some (ns_rk st))
          else match ns_one st with
               | Some (i :: one) => Some (ni_niche (nth (nth (argminQ (map (D k) (i :: one))) (i :: one) 0) (ns_pop st) nini0))
               | _ => None
               end in
        match niche with
        | None => None
        | Some nc => Some {| ns_pop := upd (ns_pop st) k (set_round (ns_it st) (ns_rk st) nc (nth k (ns_pop st) nini0));
                             ns_c := cl_select (length (ns_pop st)) ni_close k (ns_c st); ns_it := ns_it st; ns_rk := S (ns_rk st); ns_one := ns_one st |}
        end
    end.
  (** ga_niching.py:136-170 (every round of the loop selects one more individual, so [n_survive] rounds are enough) *)
  Fixpoint ni_loop (fuel n_survive : nat) (st : nst) : option (list nini) :=
    if length (cl_S (ns_c st)) <? n_survive then
      match fuel with
      | 0 => None
      | S fuel => match ni_pick (ni_refresh st) with None => None | Some st => ni_loop fuel n_survive st end
      end
    else Some (gather nini0 (ns_pop st) (cl_S (ns_c st))).
End Survival.

(** survival.py:23-102 [Survival.do] with filter_infeasible False around ga_niching.py:110-174.  [dist] is the distance of two vectors *)
Definition niche_survival (dist : list Q -> list Q -> Q) (eps : Q) (nmax : option nat) (n_survive : nat) (pop : list nini) : option (list nini) :=
  match pop with
  | [] => Some []
  | _ =>
      let sorted := fitness_survival pop in
      let D p q := dist (ni_x (nth p sorted nini0)) (ni_x (nth q sorted nini0)) in
      let n := Nat.min n_survive (length pop) in
      ni_loop D eps nmax n n (ns_init sorted)
  end.
(** ga_niching.py:229-231 [NicheGA._set_optimum] with return_all_opt True *)
Definition niche_opt (pop : list nini) : list nini := filter iter_is_one pop.
(** genetic.py:82-91: the first generation is passed through the survival with n_survive = len(infills) *)
Definition niche_init (dist : list Q -> list Q -> Q) (eps : Q) (nmax : option nat) (infills : list nini) : option (list nini) :=
  niche_survival dist eps nmax (length infills) infills.
(** genetic.py:116-135 *)
Definition niche_advance (dist : list Q -> list Q -> Q) (eps : Q) (nmax : option nat) (pop_size : nat) (pop infills : list nini) : option (list nini) :=
  niche_survival dist eps nmax pop_size (pop ++ infills).
(** a whole run: the first generation and then one list of offspring after the other (algorithm.py: [next] until the termination) *)
Fixpoint niche_advances (dist : list Q -> list Q -> Q) (eps : Q) (nmax : option nat) (pop_size : nat) (pop : list nini) (offs : list (list nini)) : option (list nini) :=
  match offs with
  | [] => Some pop
  | off :: offs => match niche_advance dist eps nmax pop_size pop off with None => None | Some pop => niche_advances dist eps nmax pop_size pop offs end
  end.
Definition niche_run (dist : list Q -> list Q -> Q) (eps : Q) (nmax : option nat) (pop_size : nat) (infills : list nini) (offs : list (list nini)) : option (list nini) :=
  match niche_init dist eps nmax infills with None => None | Some pop => niche_advances dist eps nmax pop_size pop offs end.
