[
 {
  "file": "Raster_Model",
  "def": "Raster_Model.plt_figure",
  "old": "(Some (List.length (figs w)))",
  "new": "(current w)",
  "edit": "a new figure does not become the current one",
  "breaks": [
   "C106"
  ]
 },
 {
  "file": "Raster_Model",
  "def": "Raster_Model.on_axes",
  "old": "upd l (sca g) f",
  "new": "upd l 0 f",
  "edit": "the first axes is drawn on instead of the current one",
  "breaks": [
   "C106"
  ]
 },
 {
  "file": "Raster_Model",
  "def": "Raster_Model.plt_xlim",
  "old": "(Some (a, b))",
  "new": "(Some (0, b))",
  "edit": "the x axis starts at 0",
  "breaks": [
   "C106"
  ]
 },
 {
  "file": "Raster_Model",
  "def": "Raster_Model.plt_no_yticks",
  "old": "(xlimits x) false",
  "new": "(xlimits x) true",
  "edit": "the y ticks stay",
  "breaks": [
   "C106"
  ]
 },
 {
  "file": "Raster_Model",
  "def": "Raster_Model.plt_xlabel",
  "old": "(yticks x) s (ylab x)",
  "new": "(yticks x) (xlab x) s",
  "edit": "the x label is put on the y axis",
  "breaks": [
   "C106"
  ]
 },
 {
  "file": "Raster_Model",
  "def": "Raster_Model.plt_plot",
  "old": "(lines x ++ [l])",
  "new": "[l]",
  "edit": "each line replaces the lines before",
  "breaks": [
   "C106"
  ]
 },
 {
  "file": "Raster_Model",
  "def": "Raster_Model.any_other",
  "old": "negb (val a i j =? 0) && negb (val a i j =? 1)",
  "new": "(val a i j <? 0) || (1 <? val a i j) && (val a i j <? 3)",
  "edit": "values of 3 and more are accepted",
  "breaks": [
   "C106"
  ]
 },
 {
  "file": "Raster_Model",
  "def": "Raster_Model.any_other",
  "old": "(seq 0 t)) (seq 0 n)",
  "new": "(seq 0 n)) (seq 0 t)",
  "edit": "rows and columns exchanged in the check",
  "breaks": [
   "C106"
  ]
 },
 {
  "file": "Raster_Model",
  "def": "Raster_Model.any_other",
  "old": "(seq 0 t)) (seq 0 n)",
  "new": "(seq 0 t)) (seq 0 1)",
  "edit": "only the first neuron is checked",
  "breaks": [
   "C106"
  ]
 },
 {
  "file": "Raster_Model",
  "def": "Raster_Model.range_from",
  "old": "if Nat.ltb i n then",
  "new": "if Nat.leb i n then",
  "edit": "the loop runs to n included",
  "breaks": [
   "C106"
  ]
 },
 {
  "file": "Raster_Model",
  "def": "Raster_Model.range_from",
  "old": "range_from k (i + s) n s",
  "new": "range_from k (i + 1) n s",
  "edit": "the loop ignores the stride",
  "breaks": [
   "C106"
  ]
 },
 {
  "file": "Raster_Model",
  "def": "Raster_Model.range3",
  "old": "range_from n 0 n",
  "new": "range_from n 1 n",
  "edit": "the loop starts at neuron 1",
  "breaks": [
   "C106"
  ]
 },
 {
  "file": "Raster_Model",
  "def": "Raster_Model.row",
  "old": "(j, i)",
  "new": "(i, j)",
  "edit": "time and neuron exchanged in the plot",
  "breaks": [
   "C106"
  ]
 },
 {
  "file": "Raster_Model",
  "def": "Raster_Model.row",
  "old": "filter (fun j => val a i j =? 1) (seq 0 t)",
  "new": "filter (fun j => val a i j =? 1) (seq 1 t)",
  "edit": "time steps count from 1",
  "breaks": [
   "C106"
  ]
 },
 {
  "file": "Raster_Model",
  "def": "Raster_Model.row",
  "old": "filter (fun j => val a i j =? 1)",
  "new": "filter (fun j => val a i j =? 0)",
  "edit": "silent steps are drawn",
  "breaks": [
   "C106"
  ]
 },
 {
  "file": "Raster_Model",
  "def": "Raster_Model.row",
  "old": "filter (fun j => val a i j =? 1)",
  "new": "filter (fun j => val a j i =? 1)",
  "edit": "the array is read transposed",
  "breaks": [
   "C106"
  ]
 },
 {
  "file": "Raster_Model",
  "def": "Raster_Model.raster_plot",
  "old": "if Nat.eqb n 0 || Nat.eqb t 0 then",
  "new": "if Nat.eqb n 0 then",
  "edit": "no time steps are accepted",
  "breaks": [
   "C106"
  ]
 },
 {
  "file": "Raster_Model",
  "def": "Raster_Model.raster_plot",
  "old": "Z.of_nat n <? stride x",
  "new": "Z.of_nat n <=? stride x",
  "edit": "a stride of the number of neurons is refused",
  "breaks": [
   "C106"
  ]
 },
 {
  "file": "Raster_Model",
  "def": "Raster_Model.raster_plot",
  "old": "Z.of_nat n <? stride x",
  "new": "Z.of_nat t <? stride x",
  "edit": "the stride is compared with the time steps",
  "breaks": [
   "C106"
  ]
 },
 {
  "file": "Raster_Model",
  "def": "Raster_Model.raster_plot",
  "old": "| Some _, Some _ => (w, inl BadFigsize)\n      | _, _",
  "new": "| Some _, Some _ => (w, inl BadStride)\n      | None, Some _ => (w, inl BadFigsize)\n      | _, _",
  "edit": "a figure size alone is refused",
  "breaks": [
   "C106"
  ]
 },
 {
  "file": "Raster_Model",
  "def": "Raster_Model.raster_plot",
  "old": "match figsize x with Some s => s | None => (10, 5)%nat end",
  "new": "(10, 5)%nat",
  "edit": "the figure size is ignored",
  "breaks": [
   "C106"
  ]
 },
 {
  "file": "Raster_Model",
  "def": "Raster_Model.raster_plot",
  "old": "| None => (10, 5)%nat end",
  "new": "| None => default_size end",
  "edit": "pyplot's default size is used",
  "breaks": [
   "C106"
  ]
 },
 {
  "file": "Raster_Model",
  "def": "Raster_Model.raster_plot",
  "old": "Some f => (w, f)",
  "new": "Some f => (mkPlt (figs w) (Some f), f)",
  "edit": "the given figure is made the current one",
  "breaks": [
   "C106"
  ]
 },
 {
  "file": "Raster_Model",
  "def": "Raster_Model.raster_plot",
  "old": "Some f => (w, f)",
  "new": "Some f => (plt_figure w (10, 5)%nat, f)",
  "edit": "a new figure is created though one is given",
  "breaks": [
   "C106"
  ]
 },
 {
  "file": "Raster_Model",
  "def": "Raster_Model.raster_plot",
  "old": "plt_xlim (-1) (Z.of_nat t) w",
  "new": "plt_xlim (-1) (Z.of_nat n) w",
  "edit": "the x axis ends at the number of neurons",
  "breaks": [
   "C106"
  ]
 },
 {
  "file": "Raster_Model",
  "def": "Raster_Model.raster_plot",
  "old": "plt_ylabel (ylabel x)",
  "new": "plt_ylabel (xlabel x)",
  "edit": "the y axis has the x label",
  "breaks": [
   "C106"
  ]
 },
 {
  "file": "Raster_Model",
  "def": "Raster_Model.raster_plot",
  "old": "if stride x =? 0 then (w, inl ZeroStep) ",
  "new": "if stride x =? 0 then (mkPlt [] None, inl ZeroStep) ",
  "edit": "an error closes all figures",
  "breaks": [
   "C106"
  ]
 },
 {
  "file": "Raster_Model",
  "def": "Raster_Model.raster_plot",
  "old": "i (sty x)) w) (range3",
  "new": "i 0) w) (range3",
  "edit": "the style is ignored",
  "breaks": [
   "C106"
  ]
 },
 {
  "file": "Raster_Model",
  "def": "Raster_Model.raster_plot",
  "old": "(range3 n (stride x)) w, inr f",
  "new": "(range3 n 6) w, inr f",
  "edit": "the stride is always 6",
  "breaks": [
   "C106"
  ]
 },
 {
  "file": "Raster_Model",
  "def": "Raster_Model.raster_plot",
  "old": "(range3 n (stride x)) w, inr f",
  "new": "(range3 t (stride x)) w, inr f",
  "edit": "as many neurons as time steps are drawn",
  "breaks": [
   "C106"
  ]
 },
 {
  "file": "Raster_Model",
  "def": "Raster_Model.raster_plot",
  "old": "w) (range3 n (stride x)) w, inr f",
  "new": "w) (range3 n (stride x)) w, inr 0%nat",
  "edit": "the first figure is returned",
  "breaks": [
   "C106"
  ]
 }
]