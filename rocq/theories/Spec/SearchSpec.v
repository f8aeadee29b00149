(** Vocabulary for C120: what a search asks the file system and what it makes
    of the answers.  Files may appear and disappear between any two questions. *)
From Coq Require Import ZArith List Bool.
Import ListNotations.
From Verif.Model Require Import Text Value Paths Finder.
From Verif.Spec Require Import FinderSpec.

(** One [path.exists()] call and its answer. *)
Definition question := (path * bool)%type.

(** The i-th question of the dialogue tr, counted from t, was answered by the
    file system as it was at the time of that question. *)
Definition replies (ex : fs_oracle) (t : nat) (tr : list question) : Prop :=
  forall i p b, nth_error tr i = Some (p, b) -> ex (t + i)%nat p = b.

(** The candidates cs, asked once each, are all missing. *)
Definition missed (cs : list cand) : list question := map (fun c => (fst c, false)) cs.

(** Every candidate is asked once; one that exists is asked again at once, and
    the second answer is the flag of its result. *)
Inductive one_pass : list cand -> list question -> list (cand * bool) -> Prop :=
| PassEnd : one_pass [] [] []
| PassFound c b cs tr found : one_pass cs tr found ->
    one_pass (c :: cs) ((fst c, true) :: (fst c, b) :: tr) ((c, b) :: found)
| PassMissed c cs tr found : one_pass cs tr found -> one_pass (c :: cs) ((fst c, false) :: tr) found.

(** Every candidate is missing, is asked again at once, and that second answer
    is kept. *)
Inductive twice_missed : list cand -> list question -> list (cand * bool) -> Prop :=
| TwiceEnd : twice_missed [] [] []
| TwiceMore c b cs tr seen : twice_missed cs tr seen ->
    twice_missed (c :: cs) ((fst c, false) :: (fst c, b) :: tr) ((c, b) :: seen).

(** The result for a candidate and its flag, and a list of results numbered
    from n on (indices are 16-bit). *)
Definition single (x : cand * bool) : find_result := result_of (fst x) 0 (snd x).
Fixpoint results (n : Z) (l : list (cand * bool)) : list find_result :=
  match l with
  | [] => []
  | (c, b) :: rest => result_of c (n mod 65536)%Z b :: results (n + 1)%Z rest
  end.

(** find_first: the questions and the candidate (with flag) it settles on. *)
Inductive first_dialogue : bool -> list cand -> list question -> option (cand * bool) -> Prop :=
| FirstFound before c b after :
    first_dialogue false (before ++ c :: after) (missed before ++ [(fst c, true); (fst c, b)]) (Some (c, b))
| FirstNone cs : first_dialogue false cs (missed cs) None
| FirstHead c b rest : first_dialogue true (c :: rest) [(fst c, true); (fst c, b)] (Some (c, b))
| FirstLater c0 b0 before c b after :
    first_dialogue true (c0 :: before ++ c :: after)
      ((fst c0, false) :: (fst c0, b0) :: missed before ++ [(fst c, true); (fst c, b)]) (Some (c, b))
| FirstFallback c0 b0 rest :
    first_dialogue true (c0 :: rest) ((fst c0, false) :: (fst c0, b0) :: missed rest) (Some (c0, b0)).

(** find_last. *)
Inductive last_dialogue : bool -> list cand -> list question -> option (cand * bool) -> Prop :=
| LastFound cs tr found x : one_pass cs tr (found ++ [x]) -> last_dialogue false cs tr (Some x)
| LastNone cs tr : one_pass cs tr [] -> last_dialogue false cs tr None
| LastAfter before tr1 seen c b after tr2 found others x :
    twice_missed before tr1 seen -> one_pass after tr2 found -> (c, b) :: found = others ++ [x] ->
    last_dialogue true (before ++ c :: after) (tr1 ++ (fst c, true) :: (fst c, b) :: tr2) (Some x)
| LastFallback cs tr seen x : twice_missed cs tr (seen ++ [x]) -> last_dialogue true cs tr (Some x).

(** find_all: with allow_missing every candidate is asked once, and the answer
    is its flag. *)
Inductive all_dialogue : bool -> list cand -> list question -> list (cand * bool) -> Prop :=
| AllExisting cs tr found : one_pass cs tr found -> all_dialogue false cs tr found
| AllOfThem cs bs : List.length bs = List.length cs ->
    all_dialogue true cs (List.combine (map fst cs) bs) (List.combine cs bs).

(** find_all_or_first: the first missing candidate is asked twice; it is the
    answer if nothing exists. *)
Inductive all_or_first_dialogue : list cand -> list question -> list (cand * bool) -> Prop :=
| AofAllThere cs tr found : one_pass cs tr found -> List.length found = List.length cs ->
    all_or_first_dialogue cs tr found
| AofSome before tr1 found1 c b after tr2 found2 :
    one_pass before tr1 found1 -> List.length found1 = List.length before -> one_pass after tr2 found2 ->
    found1 ++ found2 <> [] ->
    all_or_first_dialogue (before ++ c :: after) (tr1 ++ (fst c, false) :: (fst c, b) :: tr2) (found1 ++ found2)
| AofNone c b rest :
    all_or_first_dialogue (c :: rest) ((fst c, false) :: (fst c, b) :: missed rest) [(c, b)].

(** What a search with 16-bit indices answers: the results, or, with overflow
    checks, a panic at the 65536th. *)
Definition listed (oc : bool) (l : list (cand * bool)) : outcome (list find_result) finder_error :=
  if oc && (65536 <=? Z.of_nat (List.length l))%Z then Panic else Done (results 0 l).
