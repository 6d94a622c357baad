M = []
def m(name, file, definition, old, new, claim, **k): M.append(dict(name=name, file=file + '.v', **{'def': definition}, old=old, new=new, claim=claim, **k))
S='Model_PipelineStream'
m('st1',S,'st_w','List.nth (tagnat.sig2 x) (sl_w (sl_at (tagnat.sig1 x))) 0','1','C158 the weights of every process')
m('st2',S,'st_X','(List.nth t (sl_rows (sl_at (tagnat.sig1 x))) nil) 0','(List.nth t.+1 (sl_rows (sl_at (tagnat.sig1 x))) nil) 0','C158 every snapshot of the record')
m('st3',S,'st_N','length (sl_rows (List.hd sl_none ls))','(length (sl_rows (List.hd sl_none ls))).-1','C158 the last snapshot')
m('st4',S,'st_file','if par then concat_axis ax ps else','if par then concat_axis 0 ps else','C158 pieces are put together along the distributed axis')
m('st6',S,'stream_rank','(rd_xshape rd) nv false (rd_max_axis rd) cm','(rd_xshape rd) nv false (rd_max_axis rd) None','C158 distributed weights')
m('st7',S,'stream_rank','(S (rd_nt rd)) in','(rd_nt rd).-1 in','C158 the whole record')
m('st8',S,'fit_stream_array','do c <- configure s (rd_nt rd) (rd_is_real rd);','do c <- configure s (rd_nt rd) true;','C158 complex records have a two-sided spectrum')
m('st9',S,'fit_stream_array','(rd_max_axis rd)) (List.seq 0 (n_freq c))))','(rd_max_axis rd)) (List.seq 1 (n_freq c))))','C158 files of every frequency')
m('st10',S,'st_file','Nd (List.app sh (cons (n_modes_save c) nil)) (ravel phi)','Nd (cons (n_modes_save c) sh) (ravel phi)','C158 the shape of the saved array')
m('st11',S,'stream_rank','reader1_init isreal ds xdim nv cm;','reader1_init isreal ds xdim nv None;','C158 every process reads its part')
P='Model_PipelinePod'
m('pp1',P,'pl_wv','List.nth (tagnat.sig2 x) (pl_w (pl_at (tagnat.sig1 x))) 0','1','C159 weights')
m('pp2',P,'pl_phi','(@eig nt) i j) (enum','(@eig nt) i (rev_ord j)) (enum','C159 the first modes are saved')
m('pp3',P,'set_shape','Nat.eqb (Nat.modulo (length l) rest) 0','Nat.eqb (length l) (Base_List.prod (List.app xs (cons nv (cons k nil))))','C159 pieces of a process')
m('pp4',P,'set_shape','(Nat.div (length l) rest) xs','(Nat.div (length l) rest).+1 xs','C159 the shape of a piece')
m('pp5',P,'pl_file','if par then concat_axis ax ps','if par then concat_axis 0 ps','C159 pieces are put together along the distributed axis')
m('pp6',P,'gather_local','List.app (List.map (List.map cast) (snapshots d\')) (fst y)','List.app (fst y) (List.map (List.map cast) (snapshots d\'))','C159 the order of the datasets')
m('pp7',P,'gather_local','do y <- gather_local cast cm ds\';','do y <- gather_local cast None ds\';','C159 every dataset is distributed')
m('pp8',P,'pod_rank','do wl <- local_weights w ax cm m;','do wl <- local_weights w ax None m;','C159 distributed weights')
m('pp9',P,'pod_rank','do w <- define_weights 1 user xs nv;','do w <- define_weights 1 NoWeights xs nv;','C159 the weights given by the user')
m('pp10',P,'pod_fit_array','do f <- pl_file longtime nt k','do f <- pl_file true nt k','C159 the mean is subtracted only when asked')
m('pp11',P,'pl_eigs','(@eig nt) 0 j) (enum','(@eig nt) 0 (rev_ord j)) (enum','C159 the order of the saved eigenvalues')
m('pp12',P,'pl_phi','pod_phi pl_own pl_wv pl_data longtime','pod_phi pl_own pl_wv pl_data false','C159 the modes use the fluctuation')
m('pp13',P,'set_shape','if Nat.eqb (length l) (Base_List.prod sh) then Ok (Nd sh l) else Err ValueError','Ok (Nd sh l)','C159 a serial run refuses too many modes')
