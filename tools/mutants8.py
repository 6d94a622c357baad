M = []
def m(name, file, definition, old, new, claim, **k): M.append(dict(name=name, file=file + '.v', **{'def': definition}, old=old, new=new, claim=claim, **k))
B='Model_ByteOrder'
m('bo1',B,'values','Native => b | Swapped => rev b','Native => b | Swapped => b','C157 swapped arrays are misread')
m('bo2',B,'view_native','Array Native (numbers a)','Array (order a) (numbers a)','C157 swapped arrays are misread')
m('bo3',B,'reduced','(combine (reduced locs l) (reduced locs r))','(combine (reduced locs l) (reduced locs l))','C157 the sum over all ranks')
m('bo4',B,'allreduce','NoComm => values (locs r)','NoComm => values (view_native (locs r))','C157 without a communicator')
m('bo5',B,'saved','None => Array (order (locs 0)) (numbers (locs 0))','None => Array Native (numbers (locs 0))','C157 saved values')
m('bo6',B,'saved','(seq 0 size))','(seq 1 size))','C157 saved values')
D='Model_Dtype'
m('dt1',D,'promote','| F64, C64 | C64, F64 => C128','| F64, C64 | C64, F64 => C64','C133 types')
m('dt2',D,'with_f64_scalar','if nep50 then promote a F64 else','if negb nep50 then promote a F64 else','C133 types')
m('dt3',D,'real_of','C64 => F32','C64 => F64','C133 types')
m('dt4',D,'class_prec','if eq_double a then Double else Single','if eq_double a || eq_np64 a then Double else Single','C133 np.float64 given to the class')
m('dt5',D,'utils_prec','else if eq_single a || eq_np32 a then Ok Single else Err ValueError','else Ok Single','C133 unknown strings are rejected')
m('dt6',D,'set_dtype','C128 => cpx p','C128 => C128','C133 types')
m('dt7',D,'fit','(Some (real_of m)) (Some (flt p)) (Some w)','(Some (real_of m)) (Some F64) (Some w)','C133 the stored mean')
m('dt8',D,'coeffs_conv','(Some (cpx p)) (Some F64) (Some (cpx p))','(Some (cpx p)) (Some (flt p)) (Some (cpx p))','C133 the mean of the convolution')
m('dt9',D,'reconstruct','(set_dtype p a)) mu in','(set_dtype p a)) (set_dtype p mu) in','C133 the reconstruction')
m('dt10',D,'step','| MRec => ret (do p <- utils_prec (Str "double"); reconstruct p fo)','| MRec => ret (do p <- utils_prec (Str "single"); reconstruct p fo)','C133 the methods use double')
P='Model_Params'
m('pm1',P,'join','cwd ++ "/" ++ s | EmptyString','s | EmptyString','C120 the folder')
m('pm2',P,'construct','put "savedir" (VStr sd) d).','d).','C120 the caller\'s dictionary')
m('pm3',P,'store_params','(put "n_blocks" (VInt nb) ','(put "n_blocks" (VInt nf) ','C120 the stored parameters')
m('pm4',P,'clip','if Qle_bool (o_nmodes o) (inject_Z nb) then o_nmodes o else inject_Z nb','o_nmodes o','C120 modes are at most blocks')
m('pm5',P,'n_freq_of','if isreal && negb (o_full o)','if isreal','C120 full spectrum')
m('pm6',P,'step','(Some o\'), Saved f)','(Some o), Saved f)','C120 the object after a fit')
m('pm7',P,'step','| Err x => (w, Raised x)\n               end','| Err x => (set_obj w d i None, Raised x)\n               end','C120 a failed construction changes nothing')
m('pm8',P,'as_int','Ok (if Qle_bool 0 q then Qfloor q else Qceiling q)','Ok (Qfloor q)','C120 truncation')
m('pm9',P,'construct','opt "overlap" (VInt 0) d','opt "overlap" (VInt 50) d','C120 the default overlap')
W='Model_Weights'
m('we1',W,'upd_last_axis','if fst p mod L =? i then','if fst p / L =? i then','C67 per-variable normalisation')
m('we2',W,'last_axis','nth (k * L + i) l d','nth (k * L) l d','C67 per-variable normalisation')
m('we3',W,'normalize_loop','if i <? L then','if i <=? L then','C81 fewer weight columns than variables')
m('we4',W,'apply_normalization_serial','nanvar (last_axis 0%Q nv i data)) (seq 0 nv)','nanvar (last_axis 0%Q nv i data)) (seq 0 (nv - 1))','C67 every variable')
m('we5',W,'apply_normalization_parallel','tree_map (last_axis 0%Q nv i) data','tree_map (last_axis 0%Q nv 0) data','C67 parallel per-variable')
m('we6',W,'store_int','if Qle_bool 0 q then Qfloor q else Qceiling q','Qceiling q','C81 integer weights')
m('we7',W,'normalize_step','| ChunkStore _ => Err KeyError','| ChunkStore _ => Ok w','C82 normalisation with files')
m('we8',W,'fits_weights','fit_weights store nv data w\'','Ok w\'','C27 repeated fits')
F='Model_Figures'
m('fi1',F,'plot_coeffs','ids (figure s)','ids s','C142 coefficient curves')
m('fi2',F,'save_show','St (tl (open s)) ((folder p','St (open s) ((folder p','C142 figures are closed')
m('fi3',F,'suffix_coords','("_coords" ++ fst cv ++ "_var" ++ py_str (snd cv))','("_coords" ++ fst cv)','C142 one file per place')
m('fi4',F,'plot_2d_modes','(snd vm <? n_modes)%Z','(snd vm <=? n_modes)%Z','C142 modes beyond the stored ones')
m('fi5',F,'picture','let s1 := figure s in\n  match draws j with','let s1 := s in\n  match draws j with','C142 a new figure for each picture')
m('fi6',F,'plot_one','match draws with Err e => (s1, Err e)','match draws with Err e => (s, Err e)','C142 a failed call leaves its figure open')
m('fi7',F,'save_show','if blocking then [] else open s','[]','C142 shown figures')
S='Model_PodShape'
m('ps1',S,'x_tmp_shape','negb (length x =? xdim + 2)','negb (length x =? xdim + 1)','C61 shapes')
m('ps2',S,'pod_xshape','if length x <? 2 then Err IndexError','if length x <? 3 then Err IndexError','C61 shapes')
m('ps3',S,'pod_save_shape','| Default => Err TypeError','| Default => Ok (xshape ++ [nv; nt])','C61 the default number of modes')
m('ps4',S,'pod_check','else Err AssertionError','else Err ValueError','C61 the exception')
T='Model_StreamShape'
m('ss1',T,'squeeze','filter (fun d => negb (d =? 1)) s','s','C49 shapes')
m('ss2',T,'end_of_stream','if flat =? 1 then Err TypeError else Ok tt','Ok tt','C49 one local entry')
m('ss3',T,'fit_shapes','if blocks =? 0 then','if blocks =? 1 then','C49 no block')
