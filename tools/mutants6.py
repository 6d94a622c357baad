M = []
def m(name, file, definition, old, new, claim, **k): M.append(dict(name=name, file=file + '.v', **{'def': definition}, old=old, new=new, claim=claim, **k))
R='Model_RecFile'
m('rf1',R,'column','nth (j * nt + t) l zero','nth (t * p + j) l zero','C152 coefficient of the requested time')
m('rf2',R,'rec_op','(window (g * p) p (flat phi))','(window (g * p + 1) p (flat phi))','C152 modes of the point')
m('rf3',R,'rec_op','(nth g (flat mean) zero)) ts)','(nth 0 (flat mean) zero)) ts)','C152 mean of the point')
m('rf4',R,'rec_op','Ok (Nd (sp ++ [length ts])','Ok (Nd (sp ++ [nt])','C152 shape of the reconstruction')
m('rf5',R,'conv_coeffs','nth ((f * nt + t) * M + m) l zero','nth ((f * nt + t) * M + f) l zero','C152 convolution coefficients')
m('rf6',R,'conv_coeffs','nth ((f * nt + t) * M + m) l zero','nth ((f * M + m) * nt + t) l zero','C152 order of the convolution coefficients')
m('rf7',R,'rec_conv','(nth (r - 2) (shape phi) 0 =? 0) || (nth (r - 1) (shape phi) 0 =? 0)','false','C152 empty axes of the modes')
m('rf8',R,'set_shape','Ok (upd_nth ax (n / others) sh)','Ok (upd_nth 0 (n / others) sh)','C152 distributed axis of the local piece')
m('rf9',R,'set_shape','if others =? 0 then Err ValueError','if others =? 0 then Ok sh','C152 empty selections with a communicator')
m('rf10',R,'move_last','nth (g * m + k) (flat a) zero','nth (k * prod sp + g) (flat a) zero','C152 time becomes the first axis')
m('rf11',R,'unmoved','do mean\' <- distribute_dimension mean ax c;','do mean\' <- distribute_dimension mean 0 c;','C152 mean distributed like the modes')
m('rf12',R,'unmoved','do phi\' <- distribute_dimension phi ax c;','do phi\' <- Ok phi;','C152 modes distributed')
m('rf13',R,'contig','(s =? e) && contig (e * d) r','(s =? e) && contig e r','C152 bytes of the serial file')
m('rf14',R,'np_save_moved','negb (c_contiguous sh st) && f_contiguous sh st','false','C152 Fortran order of the serial file')
m('rf15',R,'np_save_moved','then hdr true sh ++ concat (map enc (flat u))','then hdr true sh ++ concat (map enc (flat (move_last u)))','C152 np.load of a Fortran-ordered file')
m('rf16',R,'index_times','Str _ => Err IndexError','Str _ => Ok []','C152 times')
m('rf17',R,'unmoved','| 3 => rec_conv phi\' a mean\' t','| 3 => rec_op phi\' a mean\' t','C152 convolution coefficients are recognised')
m('rf18',R,'moved_strides','1 :: map (fun s => s * m) (c_strides sp)','map (fun s => s * m) (c_strides sp) ++ [1]','C152 memory order')
B='Model_Spod'
m('al1',B,'all_modes','(sqrtC nb%:R * sqrtC (L 0 k))^-1','(sqrtC nb%:R * L 0 k)^-1','C153 scale of the modes')
m('al2',B,'sort_V','V i (order argsort L k)','V i (argsort L k)','C153 modes in the order of the eigenvalues')
m('al3',B,'wmul','(A i j * w i 0)','(A i j)','C153 weighted products')
m('al4',B,'kept_modes','colsub (widen_ord H) phi','colsub (fun j => rev_ord (widen_ord H j)) phi','C153 the leading modes are kept')
F='Model_Figures'
m('fo1',F,'folder','CWD => import_dir | Path d => d','CWD => import_dir | Path d => import_dir','C142 folder of the files')
