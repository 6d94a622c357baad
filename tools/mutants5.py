M=[]
def m(name,file,df,old,new,claim,multi=False):
    M.append(dict(name=name,file=file+'.v',**{'def':df},old=old,new=new,claim=claim,multi=multi))
F='Model_Figures'
m('fg1',F,'save_show','else St (tl (open s)) ((folder p','else St (open s) ((folder p','C142 figures saved to a file are closed')
m('fg2',F,'save_show','if pdf then St (open s) (files s) (pages s ++ [hd [] (open s)])','if pdf then St (tl (open s)) (files s) (pages s ++ [hd [] (open s)])','C142 pages of a report stay open')
m('fg3',F,'folder','CWD => import_dir | Path d => d','CWD => import_dir | Path d => import_dir','C142 folder of the files')
m('fg4',F,'suffix_mode','"_var" ++ py_str (fst vm) ++ "_mode" ++ py_str (snd vm)','"_var" ++ py_str (fst vm) ++ py_str (snd vm)','C142 no picture overwrites another')
m('fg5',F,'suffix_time','"_var" ++ py_str (fst vt) ++ "_time" ++ py_str (snd vt)','"_time" ++ py_str (snd vt)','C142 no picture overwrites another')
m('fg6',F,'plot_coeffs','end) ids (figure s).','end) ids s.','C142 coefficients: one figure opened')
m('fg7',F,'tmp_name','(root_of filename ++ suffix ++ splitext filename)','(filename ++ suffix)','C142 extension kept')
m('fg8',F,'plot_2d_modes','(snd vm <? n_modes)%Z','(snd vm <=? n_modes)%Z','C142 modes beyond the stored ones are skipped')
m('fg9',F,'draw','[] => [[a]] | f :: r => (f ++ [a]) :: r','[] => [[a]] | f :: r => [a] :: r','C142 what a figure holds')
m('fg10',F,'picture','| Err e => (s1, Err e)\n  | Ok a => (save_show (tmp_name filename (suffix j))','| Err e => (s, Err e)\n  | Ok a => (save_show (tmp_name filename (suffix j))','C142 a failed picture leaves a figure open')
L='Model_Levels'
m('lv1',L,'range_of','inject_Z (Qceiling (hi * inject_Z m)) / inject_Z m)','inject_Z (Qfloor (hi * inject_Z m)) / inject_Z m)','C143 the first field lies within its levels')
m('lv2',L,'range_of','(inject_Z (Qfloor (lo * inject_Z m))','(inject_Z (Qceiling (lo * inject_Z m))','C143 the first field lies within its levels')
m('lv3',L,'qmax','if Qle_bool a b then b else a','if Qle_bool a b then a else b','C143 levels')
m('lv4',L,'increasing','negb (Qle_bool y x) && increasing','increasing','C143 constant fields')
m('lv5',L,'generate_2d_subplot','do p2 <- match var2 with Some v => draw lo hi v','do p2 <- match var2 with Some v => draw lo (hi + 1) v','C143 the same levels in every panel')
m('lv6',L,'draw','linspace lo hi 9 in','linspace lo hi 8 in','C143 nine levels')
m('lv7',L,'generate_2d_subplot','None => Err TypeError end;','None => Ok p1 end;','C143 third field without the second')
m('lv8',L,'reported_score','coeff_determination epsilon truth prediction','coeff_determination epsilon prediction truth','C144 what the score compares')
m('lv9',L,'coeff_determination','(spread (snd pt) + epsilon)','(spread (fst pt) + epsilon)','C144 what the score compares')
m('lv10',L,'linspace','((b - a) / inject_Z (Z.of_nat (n - 1)))','((b - a) / inject_Z (Z.of_nat n))','C143 last level is the maximum')
S='Model_Sizes'
m('sz1',S,'get_sizes','(all_min all, all_max all, sum all)','(all_max all, all_min all, sum all)','C145 smallest and largest')
m('sz2',S,'pod_size','* (nt * prod (tl (shape d\')))','* prod (shape d\')','C145 POD total')
m('sz3',S,'B2GB','93132257461548 #','93132257461547 #','C145 gigabytes')
m('sz4',S,'store_size','data_size (b_v (snd kb))','length (b_v (snd kb))','C145 size of the chunks')
m('sz5',S,'get_sizes','None => (mine, mine, mine)','None => (mine, mine, mine + 1)','C145 serial sizes')
m('sz6',S,'all_min','fold_left Nat.min l x','fold_left Nat.min l 0','C145 smallest')
m('sz7',S,'pod_size','match c with None => 1 | Some (size, _) => size end','match c with None => 1 | Some (size, _) => 1 end','C145 POD total on many processes')
P='Model_Flip'
m('fl1',P,'program','map (Fill f) keys ++ map (fun b => Drop b f) keys','map (fun b => Drop b f) keys ++ map (Fill f) keys','C146 nothing lost')
m('fl2',P,'program','map (Fill f) keys ++ map (fun b => Drop b f) keys','map (Fill f) keys','C146 memory on the way')
m('fl3',P,'step','store (per_freq s) f (upd_nth b c m)','store (per_freq s) f (upd_nth 0 c m)','C146 column of a block')
m('fl4',P,'step','repeat (repeat zero xvsize) n_blocks','repeat (repeat zero n_blocks) xvsize','C146 shape')
m('fl5',P,'assign','match v with [x] => Ok (repeat x m) | _ => Err ValueError end','Err ValueError','C146 broadcasting')
m('fl6',P,'blocks_of','store e f (qhat b f)','store e f (qhat f b)','C146 values')
m('fl7',P,'store','(k\', x) :: d else','(k\', y) :: d else','C146 values')
m('fl8',P,'step','Ok (St (store (per_block s) b e\') (per_freq s))','Ok (St (per_block s) (per_freq s))','C146 memory on the way')
m('fl9',P,'flip','run (length last_val) n_blocks (program','run (length last_val) n_freq (program','C146 shape')
D='Model_Float'
m('fp1',D,'f_overlap','Zceil (fdiv (fmul (IZR n_dft) overlap) 100)','Zceil (fmul (IZR n_dft) (fdiv overlap 100))','C147 overlap')
m('fp2',D,'f_overlap','Zceil (fdiv (fmul','Zfloor (fdiv (fmul','C147 overlap')
m('fp3',D,'f_ceil_div','Zceil (fdiv (IZR a) (IZR b))','Zfloor (fdiv (IZR a) (IZR b))','C147 passes')
m('fp4',D,'f_half_plus_one','Ztrunc (fadd','Zceil (fadd','C147 frequencies')
m('fp5',D,'f_chunks','1024) 1024 in','1000) 1024 in','C147 chunks')
m('fp6',D,'f_chunks',') 256)) 1.',') 256)) 0.','C147 chunks')
m('fp7',D,'fexp','FLT_exp (-1074) 53','FLT_exp (-149) 24','C147 double precision')
m('fp8',D,'fl','round radix2 fexp ZnearestE x','round radix2 fexp Ztrunc x','C148 rounding to nearest')
G='Model_FloatSum'
m('fs1',G,'f_long_t_mean','window (nt - split_res) split_res data','window (nt - split_res) 1 data','C148 long-time mean')
m('fs2',G,'f_long_t_mean','(nt / n_blocks)%nat in','((nt + 1) / n_blocks)%nat in','C148 long-time mean')
m('fs3',G,'f_entry','fdiv (npsum (map f_product ts)) (INR n_blocks)','fdiv (npsum (map f_product ts)) (INR (length ts))','C148 entry of the matrix')
m('fs4',G,'f_product','fmul x (fmul y w)','fmul x y','C148 weights in the entry')
m('fs5',G,'f_long_t_mean_dict','fold_left (fun t kb => fadd t (npsum (b_v (snd kb)))) st 0','fold_left (fun t kb => npsum (b_v (snd kb))) st 0','C148 chunks')
H='Model_FloatFreq'
m('ff1',H,'f_freq_axis','(n_dft / 2 + 1) dt (f_freq_full','(n_dft / 2) dt (f_freq_full','C149 sign of the middle frequency')
m('ff2',H,'f_shift_from','fl (x - fdiv 1 dt)','fl (x + fdiv 1 dt)','C149 negative frequencies')
m('ff3',H,'argmin_from','if Rlt_dec x best then','if Rle_dec x best then','C149 ties')
m('ff4',H,'f_nearest','Rabs (fl (x - freq_req))','fl (x - freq_req)','C149 nearest')
m('ff5',H,'f_freq_axis','(seq 0 (n_dft / 2 + 1))','(seq 0 (n_dft / 2))','C149 number of frequencies')
m('ff6',H,'f_freq_full','fdiv (fdiv (INR k) dt) (INR n_dft)','fdiv (INR k) (fmul dt (INR (n_dft - 1)))','C149 spacing')
K='Model_FloatMean'
m('fm1',K,'f_mean_step','(INR (S ti))','(INR (ti + 2))','C150 mean')
m('fm2',K,'f_means','f_means (S ti) (f_mean_step ti mu x) r','f_means ti (f_mean_step ti mu x) r','C150 mean')
m('fm3',K,'f_running_mean','f_means 0 0 xs','f_means 1 0 xs','C150 mean')
B='Model_Spod'
m('st1',B,'one_sided','then 2 else 1','then 4%:R else 1','C151 and spectra: doubling')
m('st2',B,'block_centred','fun k => q k - mu','fun k => q k - mu *+ 2','C151 constant 2 e')
m('st3',B,'win_weight','((\\sum_(k < n_dft c) window c k) / (n_dft c)%:R)^-1','((\\sum_(k < n_dft c) window c k) / (n_dft c)%:R)','C151 constant 2 e')
T='Model_Train'
m('tr1',T,'improves','negb (Qle_bool b x)','negb (Qle_bool x b)','C83 best weights are kept')
m('tr2',T,'train_part','fit epochs net d None (folder s name)','fit (epochs - 1) net d None (folder s name)','training epochs')
m('tr3',T,'model_train','train_part s1 o "imag" idx d','train_part s1 o "real" idx d','real and imaginary parts')
m('tr4',T,'fit','fit n net\' d (Some x) (Some (weights net\'))','fit n net\' d (Some x) (Some (weights net))','best weights')
m('tr5',T,'load','load_weights net w','net','the network after inference')
X='Model_Geo'
m('ge1',X,'lon_rad','linspace 0 360 (x2 + 1)','linspace 0 360 x2','C66 longitudes')
m('ge2',X,'d_lat','Ok (second / 2 :: diff_lat ++ [last / 2])','Ok (second :: diff_lat ++ [last])','C66 area')
m('ge3',X,'d_lon','Ok (first / 2 ::','Ok (first ::','C66 first longitude')
m('ge4',X,'geo_trapz_3D','concat (repeat dA3 nv)','dA3','C66 shape')
Y='Model_Hamming'
m('ha1',Y,'hamming_window','(INR N - 1)','(INR N)','C74 symmetric')
m('ha2',Y,'block_coeff','(win_weight w / INR n * fst f, win_weight w / INR n * snd f)','(win_weight w * fst f, win_weight w * snd f)','C74 amplitude')
m('ha3',Y,'hamming_window','54/100 - 46/100','54/100 + 46/100','C74 shape of the window')
