(** The settings dialog of the GUI: gui/settingsdialog.cpp:27-148 (settings, setupState, setupConnections),
    gui/settingsdialog.ui (the initial state of the buttons; the ranges of the spin boxes: 0 to 99, 1 to 1e9 with one
    decimal), used by gui/mainwindow.cpp:505-513.  Qt's buttons by QAbstractButton::setChecked and QGroupBox::setChecked: a change
    first unchecks the other button of an exclusive group, then calls the functions connected to toggled;
    the only checked button of an exclusive group cannot be unchecked; the buttons inside an unchecked box are
    disabled.
    Simplifications: the text of a number being typed is not modelled; a spin box bounds what it is given and the
    one with a decimal rounds it half up; infinities go to the bounds, NaN to the lower one. *)
From Coq Require Import List ZArith QArith Qround Bool.
From Verif Require Import Settings.
Import ListNotations.
Local Open Scope list_scope.

Inductive widget := WMocus | WBdd | WZbdd | WBox | WRare | WMcub | WPrime | WProb | WImp.
Record buttons := mkB { b_mocus : bool; b_bdd : bool; b_zbdd : bool; b_box : bool; b_rare : bool; b_mcub : bool; b_prime : bool; b_prob : bool; b_imp : bool }.
Definition get (w : widget) (b : buttons) : bool :=
  match w with WMocus => b_mocus b | WBdd => b_bdd b | WZbdd => b_zbdd b | WBox => b_box b | WRare => b_rare b | WMcub => b_mcub b | WPrime => b_prime b | WProb => b_prob b | WImp => b_imp b end.
Definition put (w : widget) (v : bool) (b : buttons) : buttons :=
  let '(mkB m d z x r c p q i) := b in
  match w with WMocus => mkB v d z x r c p q i | WBdd => mkB m v z x r c p q i | WZbdd => mkB m d v x r c p q i | WBox => mkB m d z v r c p q i
  | WRare => mkB m d z x v c p q i | WMcub => mkB m d z x r v p q i | WPrime => mkB m d z x r c v q i | WProb => mkB m d z x r c p v i | WImp => mkB m d z x r c p q v end.
(** the other buttons of an exclusive group, in the order of the form; None: no radio button *)
Definition others (w : widget) : option (list widget) :=
  match w with WMocus => Some [WBdd; WZbdd] | WBdd => Some [WMocus; WZbdd] | WZbdd => Some [WMocus; WBdd] | WRare => Some [WMcub] | WMcub => Some [WRare] | _ => None end.
Definition other_checked (w : widget) (b : buttons) : option widget := match others w with Some l => find (fun u => get u b) l | None => None end.
(** settingsdialog.cpp:114-146: the functions connected to toggled *)
Definition connected (w : widget) (v : bool) : list (widget * bool) :=
  match w, v with
  | WProb, false => [(WImp, false)]
  | WImp, true => [(WProb, true)]
  | WBdd, false => [(WBox, true); (WPrime, false)]
  | WPrime, true => [(WBdd, true); (WBox, false)]
  | WBox, true => [(WPrime, false)]
  | WBox, false => [(WBdd, true)]
  | _, _ => []
  end.
(** setChecked; [on]: the connections are made.  None: the calls do not end within the fuel. *)
Fixpoint set_checked (fuel : nat) (on : bool) (w : widget) (v : bool) (b : buttons) : option buttons :=
  match fuel with
  | O => None
  | S fuel =>
      if Bool.eqb (get w b) v then Some b
      else if negb v && (match others w with Some _ => true | None => false end) && (match other_checked w b with None => true | Some _ => false end) then Some b
      else
        let b := put w v b in
        match (if v then match other_checked w b with Some u => set_checked fuel on u false b | None => Some b end else Some b) with
        | None => None
        | Some b => fold_left (fun r c => match r with Some b => set_checked fuel on (fst c) (snd c) b | None => None end) (if on then connected w v else []) (Some b)
        end
  end.
Definition enough : nat := 6.

Record dialog := mkDialog { buttons_of : buttons; order : Z; time : Q }.
(** the spin boxes *)
Definition bound_order (n : Z) : Z := if (n <? 0)%Z then 0%Z else if (99 <? n)%Z then 99%Z else n.
Definition round1 (q : Q) : Q := Qfloor (q * 10 + (1 # 2)) # 10.
Definition bound_time (t : dbl) : Q :=
  match t with
  | Fin q => if Qle_bool (round1 q) 1 then 1%Q else if Qle_bool (inject_Z (10 ^ 9)) (round1 q) then inject_Z (10 ^ 9) else round1 q
  | PInf => inject_Z (10 ^ 9)
  | _ => 1%Q
  end.
(** 80-110: setupState, before the connections are made, on the form as it is in the .ui file *)
Definition form : buttons := mkB false true false false true false false false false.
Definition sets (l : list (widget * bool)) (b : buttons) : option buttons :=
  fold_left (fun r c => match r with Some b => set_checked enough false (fst c) (snd c) b | None => None end) l (Some b).
Definition setup (s : settings) : option dialog :=
  option_map (fun b => mkDialog b (bound_order (limit_order s)) (bound_time (mission_time s)))
    (sets ([(WPrime, prime_implicants s); (WProb, probability_analysis s); (WImp, importance_analysis s)] ++
           [(match algo s with kBdd => WBdd | kZbdd => WZbdd | kMocus => WMocus end, true); (WBox, true);
            match approx s with kNone => (WBox, false) | kRareEvent => (WRare, true) | kMcub => (WMcub, true) end]) form).
(** What a user does: clicks, or enters a number *)
Inductive action := Click (w : widget) | EnterOrder (n : Z) | EnterTime (t : Q).
Definition act (a : action) (d : dialog) : option dialog :=
  match a with
  | Click w =>
      let b := buttons_of d in
      if (match w with WRare | WMcub => true | _ => false end) && negb (b_box b) then Some d
      else option_map (fun b => mkDialog b (order d) (time d)) (set_checked enough true w (negb (get w b)) b)
  | EnterOrder n => Some (mkDialog (buttons_of d) (bound_order n) (time d))
  | EnterTime t => Some (mkDialog (buttons_of d) (order d) (bound_time (Fin t)))
  end.
Fixpoint acts (l : list action) (d : dialog) : option dialog := match l with [] => Some d | a :: l => match act a d with Some d => acts l d | None => None end end.
(** 44-78: settings(); None: a GUI_ASSERT fails, or the program ends *)
Fixpoint all_calls (l : list call) (s : settings) : option settings :=
  match l with [] => Some s | c :: l => match run_call c s with Ok s => all_calls l s | _ => None end end.
Definition result (d : dialog) : option settings :=
  let b := buttons_of d in
  match (if b_bdd b then Some kBdd else if b_zbdd b then Some kZbdd else if b_mocus b then Some kMocus else None),
        (if negb (b_box b) then Some kNone else if b_rare b then Some kRareEvent else if b_mcub b then Some kMcub else None) with
  | Some a, Some x =>
      all_calls [CAlgorithm a; CPrimeImplicants (b_prime b); CProbability (b_prob b); CImportance (b_imp b); CApproximation x;
                 CLimitOrder (order d); CMissionTime (Fin (time d))] default_settings
  | _, _ => None
  end.
