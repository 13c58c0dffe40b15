(** * PlotModel: src/mqt/qecc/cc_decoder/plots.py.  What is modelled is the data that is handed to matplotlib, panel by panel;
    axis labels, limits, colours of generate_plots and the drawing itself are not.  A finite double is the integer multiple of 2^-1074
    it denotes (an exact representation; NaN is excluded, the two zeros are one).  Result files are the dictionaries that json.loads
    returns, in the order in which the directory is listed. *)
From Verif Require Export PyModel.
From Coq Require Export ZArith List Lia Bool Arith Permutation Sorted.
Export ListNotations.
Local Open Scope nat_scope.
Local Open Scope py_scope.

Definition fl := Z.
(** a result of cc_decoder/decoder.py as generate_plots reads it: distance, p, logical_error_rates, logical_error_rate_ebs, avg_total_time;
    min_wts_logical_err is collected at line 142 but never plotted, and left out *)
Record result := mkRes { r_d : Z; r_p : fl; r_ler : list fl; r_eb : list fl; r_t : fl }.
(** a dictionary in insertion order; m[k] = f(m.get(k, dflt)) *)
Fixpoint upsert {V} (k : Z) (dflt : V) (f : V -> V) (m : list (Z * V)) : list (Z * V) :=
  match m with [] => [(k, f dflt)] | (k', v) :: m' => if (k =? k')%Z then (k', f v) :: m' else (k', v) :: upsert k dflt f m' end.
Fixpoint lookup {V} (k : Z) (m : list (Z * V)) : option V := match m with [] => None | (k', v) :: m' => if (k =? k')%Z then Some v else lookup k m' end.
(** sorted: any stable sorting function *)
Fixpoint insert {A} (le : A -> A -> bool) (a : A) (l : list A) : list A := match l with [] => [a] | b :: l' => if le a b then a :: l else b :: insert le a l' end.
Fixpoint isort {A} (le : A -> A -> bool) (l : list A) : list A := match l with [] => [] | a :: l' => insert le a (isort le l') end.
(** comparison of tuples and of lists: the first components that differ decide *)
Definition lex {A B} (lea : A -> A -> bool) (leb : B -> B -> bool) (x y : A * B) : bool := if lea (fst x) (fst y) && lea (fst y) (fst x) then leb (snd x) (snd y) else lea (fst x) (fst y).
Fixpoint lle (l m : list Z) : bool := match l, m with [], _ => true | _ :: _, [] => false | x :: l', y :: m' => if (x =? y)%Z then lle l' m' else (x <=? y)%Z end.
(** sorted(dictionary.items()): keys are different, so values are never compared *)
Definition by_key {V} (x y : Z * V) : bool := (fst x <=? fst y)%Z.
Definition items {V} (m : list (Z * V)) : list (Z * V) := isort by_key m.
Fixpoint pmap {A B} (f : A -> py B) (l : list A) : py (list B) := match l with [] => Ret [] | a :: l' => do b <- f a; do bs <- pmap f l'; Ret (b :: bs) end.

(** plots.py 126-146: the lists of one distance, filled result by result *)
Record series := mkS { s_p : list fl; s_ler : list (list fl); s_eb : list (list fl); s_t : list fl }.
Definition s_empty : series := mkS [] [] [] [].
Definition add_result (r : result) (s : series) : series := mkS (s_p s ++ [r_p r]) (s_ler s ++ [r_ler r]) (s_eb s ++ [r_eb r]) (s_t s ++ [r_t r]).
Definition metrics (data : list result) : list (Z * series) := fold_left (fun m r => upsert (r_d r) s_empty (add_result r) m) data [].
Definition per_metrics (data : list result) : list (Z * list (Z * list fl)) := fold_left (fun m r => upsert (r_p r) [] (upsert (r_d r) [] (fun _ => r_ler r)) m) data [].
(** plots.py 148-150: zip, sort the tuples (p, lers, time, ebs), unzip *)
Definition row := (fl * (list fl * (fl * list fl)))%type.
Definition row_le : row -> row -> bool := lex Z.leb (lex lle (lex Z.leb lle)).
Definition rows (s : series) : list row := combine (s_p s) (combine (s_ler s) (combine (s_t s) (s_eb s))).
Definition unrows (l : list row) : series := mkS (map fst l) (map (fun x => fst (snd x)) l) (map (fun x => snd (snd (snd x))) l) (map (fun x => fst (snd (snd x))) l).
Definition sort_series (s : series) : series := unrows (isort row_le (rows s)).

(** what is drawn in panel (row, column) of the 4 x 4 figure; the label is a distance or an error rate *)
Inductive cmd := ErrorBar (r c : nat) (x y e : list fl) (label : Z) | Line (r c : nat) (x y : list fl) (label : Z) | VLine (r c : nat) (x : fl).
(** np.array / np.sum(.., axis=1) of lists of different lengths fails *)
Definition array2 (m : list (list fl)) : py unit := if forallb (fun r => length r =? length (hd [] m)) m then Ret tt else Raise ValueError.
(** array[:, l] *)
Definition column (m : list (list fl)) (l : nat) : py (list fl) := if l <? length (hd [] m) then Ret (map (fun r => nth l r 0%Z) m) else Raise IndexError.
Definition panel (r c : nat) : py unit := if (r <? 4) && (c <? 4) then Ret tt else Raise IndexError.
(** list[l] *)
Definition item (l : list fl) (i : nat) : py fl := if i <? length l then Ret (nth i l 0%Z) else Raise IndexError.

(** plots.py 147-170, one round of the loop: the curves of distance d, one panel for each logical operator, and the decoding time *)
Definition curve (ds : Z * series) : py (list cmd) :=
  let d := fst ds in let s := sort_series (snd ds) in
  do _ <- array2 (s_ler s);
  do _ <- array2 (s_eb s);
  do cs <- pmap (fun l => do y <- column (s_ler s) l; do e <- column (s_eb s) l; do _ <- panel 0 l; Ret (ErrorBar 0 l (s_p s) y e d)) (seq 0 (length (hd [] (s_ler s))));
  Ret (cs ++ [Line 1 0 (s_p s) (s_t s) d]).
(** plots.py 176-185: times by error rate, for the error rates in the list *)
Definition mem (p : fl) (l : list fl) : bool := existsb (Z.eqb p) l.
Definition p_data (pers : list fl) (ms : list (Z * list (fl * fl))) : list (Z * list (Z * fl)) :=
  fold_left (fun m ds => fold_left (fun m pt => if mem (fst pt) pers then upsert (fst pt) [] (fun l => l ++ [(fst ds, snd pt)]) m else m) (snd ds) m) ms [].
(** plots.py 184-185: ax.plot of lists of different lengths raises ValueError *)
Definition time_line (r c : nat) (ds : list Z) (pl : Z * list (Z * fl)) : py cmd := if length (snd pl) =? length ds then Ret (Line r c ds (map snd (snd pl)) (fst pl)) else Raise ValueError.

(** calculate_threshold, plots.py 52-110, for the panel (r, c); scipy's curve_fit is a parameter: it gets error rates, distances and logical
    error rates and gives the fitted parameters, of which the last is the threshold, or an exception *)
Definition curve_fit := list fl -> list Z -> list fl -> py fl.
Definition selected (min_per max_per : fl) (s : series) : list (fl * (list fl * list fl)) := filter (fun x => (min_per <? fst x)%Z && (fst x <? max_per)%Z) (combine (s_p s) (combine (s_ler s) (s_eb s))).
Definition calculate_threshold (fit : curve_fit) (r c : nat) (code_dict : list (Z * series)) (min_per max_per : fl) (l : nat) : py (list cmd) :=
  do parts <- pmap (fun ds => pmap (fun x => do ler <- item (fst (snd x)) l; do eb <- item (snd (snd x)) l; Ret (fst x, fst ds, ler)) (selected min_per max_per (snd ds))) code_dict;
  let tr := concat parts in
  do pth <- fit (map (fun x => fst (fst x)) tr) (map (fun x => snd (fst x)) tr) (map snd tr);
  do eb <- pmap (fun ds => do _ <- array2 (s_ler (snd ds)); do y <- column (s_ler (snd ds)) l; do _ <- array2 (s_eb (snd ds)); do e <- column (s_eb (snd ds)) l; Ret (ErrorBar r c (s_p (snd ds)) y e (fst ds))) (items code_dict);
  Ret (VLine r c pth :: eb).
(** plot_ler_vs_distance, plots.py 23-36 *)
Definition plot_ler_vs_distance (r c : nat) (code_dict : list (Z * list (Z * list fl))) (pers : list fl) (l : nat) : py (list cmd) :=
  pmap (fun p => match lookup p code_dict with
                 | None => Raise KeyError
                 | Some dd => do ys <- pmap (fun dl => item (snd dl) l) (items dd); Ret (Line r c (map fst (items dd)) ys p)
                 end) pers.

(** generate_plots, plots.py 113-195, after the files are read; [min_per], [max_per] are the defaults 0.06 and 0.13 of calculate_threshold,
    [pers] the five error rates of line 177, [per1] the 0.01 of line 193 *)
Definition generate_plots (fit : curve_fit) (min_per max_per : fl) (pers : list fl) (per1 : fl) (data : list result) : py (list cmd) :=
  let ms := metrics data in
  do cs <- pmap curve (items ms);
  let ms' := map (fun ds => (fst ds, sort_series (snd ds))) ms in
  let ds := map fst (items ms') in
  let pd := p_data pers (map (fun x => (fst x, combine (s_p (snd x)) (s_t (snd x)))) (items ms')) in
  do ts <- pmap (time_line 2 1 ds) (items pd);
  match rev (items ms') with
  | [] => Raise UnboundLocalError                             (* mdata is not bound if there are no results *)
  | mdata :: _ =>
    do th <- pmap (fun l => do _ <- panel 1 l; calculate_threshold fit 1 l ms' min_per max_per 0) (seq 0 (length (hd [] (s_ler (snd mdata)))));   (* line 192 does not pass logical_idx *)
    do vs <- plot_ler_vs_distance 3 0 (per_metrics data) [per1] 0;
    Ret (concat cs ++ ts ++ concat th ++ vs)
  end.

(** generate_plots_tn, plots.py 198-264; the wall time divided by n_run, times 10^6, is a field *)
Record tn_run := mkTn { t_d : Z; t_per : fl; t_lfr : fl; t_ep : fl; t_us : fl }.
Definition by_dist (f : tn_run -> fl * fl) (data : list tn_run) : list (Z * list (fl * fl)) := fold_left (fun m r => upsert (t_d r) [] (fun l => l ++ [f r]) m) data [].
(** xys.sort(key=itemgetter(0)): stable *)
Definition sort_xys (m : list (Z * list (fl * fl))) : list (Z * list (fl * fl)) := map (fun x => (fst x, isort by_key (snd x))) m.
Definition generate_plots_tn (pers : list fl) (data : list tn_run) : py (list cmd) :=
  let lers := sort_xys (by_dist (fun r => (t_per r, t_lfr r)) data) in
  let times := sort_xys (by_dist (fun r => (t_ep r, t_us r)) data) in
  let draw r c m := map (fun x => Line r c (map fst (snd x)) (map snd (snd x)) (fst x)) (items m) in
  do ts <- pmap (time_line 1 1 (map fst (items times))) (items (p_data pers (items times)));
  Ret (draw 0 0 lers ++ draw 1 0 times ++ ts).
